(** C91, C92: nestings of the algorithms, including when_all and race_and_cancel. *)
From Coq Require Import List Arith Bool Lia.
From Verif Require Import Lts M_Nest S_Nest P_Nest.
Import ListNotations.

(** ** C91 *)
(** When the receiver of the whole expression is notified, what has happened is a complete execution of the structured concurrent program, with its result;
    nothing happens afterwards. *)
Theorem C91_nested_program x ls o tr v : run n_step (n_init x) ls = Running o tr -> In (NDone v) tr -> exists t, tr = t ++ [NDone v] /\ beh x t v.
Proof. intros R D. destruct (nest_done x ls o tr v R D) as (t & E & _ & B). eauto. Qed.
Print Assumptions C91_nested_program.
(** At any time, what has happened so far is the beginning of such an execution. *)
Theorem C91_nested_prefix x ls o tr : run n_step (n_init x) ls = Running o tr -> exists t v u, beh x t v /\ t ++ [NDone v] = tr ++ u.
Proof. exact (nest_prefix x ls o tr). Qed.
Print Assumptions C91_nested_prefix.
(** Without when_all and race_and_cancel nothing fails. *)
Theorem C91_nested_sequential_safe x ls f tr : sequential x -> run n_step (n_init x) ls <> Failed f tr.
Proof. intros S. exact (nest_seq_safe x S ls f tr). Qed.
Print Assumptions C91_nested_sequential_safe.

(** ** C92 *)
(** The receiver is notified at most once, *)
Theorem C92_nested_once x ls o tr v w a b c : run n_step (n_init x) ls = Running o tr -> tr <> a ++ NDone v :: b ++ NDone w :: c.
Proof.
  intros R E. destruct (nest_once x ls o tr R) as [(u & t & E' & N)|N].
  - rewrite E in E'. change (a ++ NDone v :: b ++ NDone w :: c) with (a ++ (NDone v :: b) ++ NDone w :: c) in E'.
    destruct c as [|e c _] using rev_ind; [rewrite app_assoc in E'; apply app_inj_tail in E' as [<- _]; apply (N v); apply in_or_app; right; now left|].
    replace (a ++ (NDone v :: b) ++ NDone w :: c ++ [e]) with ((a ++ (NDone v :: b) ++ NDone w :: c) ++ [e]) in E' by (rewrite <- !app_assoc; reflexivity).
    apply app_inj_tail in E' as [<- _]. apply (N v). apply in_or_app. right. now left.
  - apply (N v). rewrite E. apply in_or_app. right. now left.
Qed.
Print Assumptions C92_nested_once.
(** when all leaf operations that were started anywhere inside of the expression have completed, and all user functions have returned; *)
Theorem C92_nested_structured x ls o tr v : run n_step (n_init x) ls = Running o tr -> In (NDone v) tr -> env_idle tr.
Proof. exact (nest_idle x ls o tr v). Qed.
Print Assumptions C92_nested_structured.
(** and it is notified if these are over and the library has nothing left to do. *)
Theorem C92_nested_complete x ls o tr : run n_step (n_init x) ls = Running o tr -> In NLStart ls -> env_idle tr -> (forall p, n_step o (NLStep p) = Disabled) -> exists v, In (NDone v) tr.
Proof. exact (nest_progress x ls o tr). Qed.
Print Assumptions C92_nested_complete.

(** *** Witnesses *)
(** sequence(when_all(leaf 1, race_and_cancel(leaf 2, leaf 3)), transform(leaf 4, 9)) *)
Definition ex_nest : ex := XSeq (XAll (XLeaf 1) [XRace 7 (XLeaf 2) [XLeaf 3]]) [XTrans (XLeaf 4) 9].
Definition ex_nest_ls : list nlabel :=
  [NLStart; NLStep []; NLStep []; NLStep [1]; NLStep [1]; NLStep [];        (* leaf 1, the race with the leaves 2 and 3 *)
   NLEnv [1; 1] 0; NLStep [1; 1]; NLStep [1; 2];                            (* leaf 3 wins and cancels the token of leaf 2 *)
   NLEnv [0] 0; NLStep [0]; NLEnv [1; 0] 0; NLStep [1; 0]; NLStep [1]; NLStep [];
   NLEnv [] 5; NLStep []; NLEnv [] 6; NLStep []; NLStep []].
Definition ex_nest_tr : list nevent :=
  [NLeaf 1; NLeaf 2; NLeaf 3; NComp 3 0; NCancel 7 0; NComp 1 0; NComp 2 0; NLeaf 4; NComp 4 5; NCall 9 5; NRet 9 6].
Example C91_example : exists o tr, run n_step (n_init ex_nest) ex_nest_ls = Running o tr /\ tr = ex_nest_tr ++ [NDone 6].
Proof. unfold ex_nest_ls. witness. vmrefl. Qed.
Example C92_example : exists o tr, run n_step (n_init ex_nest) ex_nest_ls = Running o tr /\ In NLStart ex_nest_ls /\ env_idle tr /\ In (NDone 6) tr.
Proof. unfold ex_nest_ls. witness. split; [now left|]. split; [split; vmrefl|]. vm_compute. tauto. Qed.
(** the meaning of that execution, from the definition of [beh] alone *)
Example C91_meaning : beh ex_nest ex_nest_tr 6.
Proof.
  constructor. change ex_nest_tr with ([NLeaf 1; NLeaf 2; NLeaf 3; NComp 3 0; NCancel 7 0; NComp 1 0; NComp 2 0] ++ [NLeaf 4; NComp 4 5] ++ [NCall 9 5; NRet 9 6]).
  apply (bs_next _ _ _ _ 0); [|do 3 constructor].
  apply (b_all _ _ [[NLeaf 1; NComp 1 0]; [NLeaf 2; NLeaf 3; NComp 3 0; NCancel 7 0; NComp 2 0]]).
  - econstructor; [constructor|]. econstructor; [|constructor].
    apply (b_race 7 _ _ [[NLeaf 2; NComp 2 0]; [NLeaf 3; NComp 3 0]] 1); [econstructor; [constructor|econstructor; [constructor|constructor]]|simpl; lia|].
    apply (sh_cons _ 0 _ [NComp 2 0]); [reflexivity|]. apply (sh_cons _ 1 _ [NComp 3 0; NCancel 7 0]); [reflexivity|]. apply (sh_cons _ 1 _ [NCancel 7 0]); [reflexivity|].
    apply (sh_cons _ 1 _ []); [reflexivity|]. apply (sh_cons _ 0 _ []); [reflexivity|]. constructor. simpl. intuition congruence.
  - apply (sh_cons _ 0 _ [NComp 1 0]); [reflexivity|]. do 4 (eapply (sh_cons _ 1); [reflexivity|]). apply (sh_cons _ 0 _ []); [reflexivity|].
    apply (sh_cons _ 1 _ []); [reflexivity|]. constructor. simpl. intuition congruence.
Qed.
(** what is not allowed: leaf 4 before leaf 1 has completed *)
Example C91_not_before : ~ exists t v, beh (XSeq (XLeaf 1) [XLeaf 4]) (NLeaf 1 :: NLeaf 4 :: t) v.
Proof.
  intros (t & v & B). inversion B; subst. match goal with H : behs _ _ _ _ |- _ => inversion H; subst end. match goal with H : beh (XLeaf 1) _ _ |- _ => inversion H; subst end. discriminate.
Qed.
(** a loop whose body is a when_all *)
Example C91_loop : exists o tr, run n_step (n_init (XRep 1 2 (fun _ => XAll (XLeaf 1) [XLeaf 2])))
  [NLStart; NLEnv [] 1; NLEnv [] 0; NLStep []; NLStep []; NLStep []; NLEnv [1] 0; NLEnv [0] 0; NLStep [0]; NLStep [1]; NLStep []; NLEnv [] 0; NLStep []] = Running o tr /\
  tr = [NCall 1 0; NRet 1 1; NCall 2 0; NRet 2 0; NLeaf 1; NLeaf 2; NComp 2 0; NComp 1 0; NCall 1 0; NRet 1 0; NDone 0].
Proof. witness. vmrefl. Qed.
(** the failures of C40 and C42 *)
Example C91_when_all_inline : exists tr, run n_step (n_init (XAll (XInv 1) [])) [NLStart; NLStep []; NLEnv [0] 0; NLStep [0]] = Failed AssertFailed tr.
Proof. eexists. vm_compute. reflexivity. Qed.
Example C91_race_overtaken : exists tr, run n_step (n_init (XRace 7 (XLeaf 1) [XLeaf 2])) [NLStart; NLStep []; NLStep []; NLEnv [0] 0; NLStep [0]; NLEnv [1] 0; NLStep [1]] = Failed UseAfterFree tr.
Proof. eexists. vm_compute. reflexivity. Qed.
Example C91_sequential_example : sequential (XSeq (XRep 1 2 (fun v => XLeaf v)) [XTrans (XIte 3 (XInv 4) (XLeaf 5)) 9]).
Proof. constructor. intros y [<-|[<-|[]]]; repeat constructor. Qed.
