(** Specification of the sequential algorithms: the sequential program that a sender expression stands for. *)
From Coq Require Import List Arith Bool.
From Verif Require Import Lts M_Algo.
Import ListNotations.

(** Calls and returns of user functions, starts and completions of leaf senders *)
Definition is_obs (e : mevent) : bool := match e with ECall _ _ | ERet _ _ | ELeaf _ | EComp _ _ => true | _ => false end.
Definition obs (tr : list mevent) : list mevent := filter is_obs tr.

(** A behaviour: [B t (Some v)] if the program can end with value [v] after the events [t], [B t None] if it can do [t] and be still running *)
Definition beh := list mevent -> option nat -> Prop.
Definition ret (v : nat) : beh := fun t r => t = [] /\ (r = None \/ r = Some v).
(** first [P], then [Q] with the value of [P] *)
Definition bind (P : beh) (Q : nat -> beh) : beh := fun t r =>
  P t None /\ r = None \/ exists t1 v t2, t = t1 ++ t2 /\ P t1 (Some v) /\ Q v t2 r.
(** call of the function [f] *)
Definition call (f x : nat) : beh := fun t r =>
  t = [] /\ r = None \/ t = [ECall f x] /\ r = None \/ exists v, t = [ECall f x; ERet f v] /\ (r = None \/ r = Some v).
(** a leaf sender *)
Definition leaf (i : nat) : beh := fun t r =>
  t = [] /\ r = None \/ t = [ELeaf i] /\ r = None \/ exists v, t = [ELeaf i; EComp i v] /\ (r = None \/ r = Some v).
(** while(cond) body *)
Inductive loop (cond body : beh) : beh :=
| loop_cond t : cond t None -> loop cond body t None
| loop_end t r : cond t (Some 0) -> r = None \/ r = Some 0 -> loop cond body t r
| loop_body t1 v t2 : cond t1 (Some (S v)) -> body t2 None -> loop cond body (t1 ++ t2) None
| loop_again t1 v t2 w t3 r : cond t1 (Some (S v)) -> body t2 (Some w) -> loop cond body t3 r -> loop cond body (t1 ++ t2 ++ t3) r.

(** The sequential program *)
Fixpoint sem (s : sender) : beh :=
  match s with
  | SInv f => call f 0
  | SLeaf i => leaf i
  | STrans s f => bind (sem s) (fun v => call f v)
  | SIte c a b => bind (call c 0) (fun v => if v =? 0 then sem b else sem a)
  | SRep c g body => loop (call c 0) (bind (call g 0) (fun w => sem (body w)))
  | SLet p g body => bind (call p 0) (fun x => bind (call g x) (fun w => sem (body w)))
  | SSeq l => (fix go l := match l with
                           | [] => ret 0
                           | s :: l' => match l' with [] => sem s | _ => bind (sem s) (fun _ => go l') end
                           end) l
  | SLam g x body => bind (call g x) (fun w => sem (body w))
  end.

(** sequence() has at least one argument, also in the senders made by user functions. *)
Inductive wf : sender -> Prop :=
| wf_inv f : wf (SInv f)
| wf_leaf i : wf (SLeaf i)
| wf_trans s f : wf s -> wf (STrans s f)
| wf_ite c a b : wf a -> wf b -> wf (SIte c a b)
| wf_rep c g body : (forall w, wf (body w)) -> wf (SRep c g body)
| wf_let p g body : (forall w, wf (body w)) -> wf (SLet p g body)
| wf_seq l : l <> [] -> (forall s, In s l -> wf s) -> wf (SSeq l)
| wf_lam g x body : (forall w, wf (body w)) -> wf (SLam g x body).
(** The operation that connect() creates is a let_operation. *)
Inductive islet : sender -> Prop :=
| il_let p g body : islet (SLet p g body)
| il_trans s f : islet s -> islet (STrans s f)
| il_lam g x body w : islet (body w) -> islet (SLam g x body).

(** What the client must respect: the operation is destroyed after the notification of its receiver, or before start(), unless
    it is a let_operation. *)
Definition m_rule (e : sender) (tr : list mevent) : Prop := forall t1 t2, tr = t1 ++ EDestroy :: t2 ->
  (exists v, In (EDone v) t1) \/ ~ In EStart (t1 ++ EDestroy :: t2) /\ ~ islet e.
