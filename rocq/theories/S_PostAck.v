(** Specification vocabulary for post_ack_mechanism: what is attached, offered, received and acknowledged, as functions of
    the trace. *)
From Coq Require Import List Arith Bool.
From Verif Require Import Lts M_Wait S_Wait M_PostAck.
Import ListNotations.

Section Spec.
Context {T : Type}.
Notation P := (post_ack T).
Notation trace := (list (event P)).

(** - the attached agents, and those with a running detach();
    - the agent that each poll operation belongs to, and the agents whose poll has not returned yet;
    - the posts made so far with their objects;
    - [sp_due]: (agent, post) for each post that was made while the agent was attached, that it has not received yet, in
      posting order (detaching gives up what is due);
    - [sp_held]: (poll operation, post) for each handle received and not acknowledged. *)
Record sp := SP {
  sp_att : list nat; sp_det : list nat;
  sp_ops : list (nat * nat); sp_busy : list nat;
  sp_posts : list (nat * T);
  sp_due : list (nat * nat);
  sp_held : list (nat * nat)
}.
Definition sp_init : sp := SP [] [] [] [] [] [] [].

Definition agent_of (o : nat) (s : sp) : option nat := option_map snd (find (fun x => Nat.eqb (fst x) o) (sp_ops s)).
Definition object_of (p : nat) (s : sp) : option T := option_map snd (find (fun x => Nat.eqb (fst x) p) (sp_posts s)).
(** The posts that are due for agent [a], oldest first. *)
Definition due_of (a : nat) (s : sp) : list nat := map snd (filter (fun x => Nat.eqb (fst x) a) (sp_due s)).
Definition pair_eqb (x y : nat * nat) : bool := Nat.eqb (fst x) (fst y) && Nat.eqb (snd x) (snd y).
Fixpoint drop_pair (x : nat * nat) (l : list (nat * nat)) : list (nat * nat) :=
  match l with [] => [] | y :: l' => if pair_eqb y x then l' else y :: drop_pair x l' end.

Definition sp_step (s : sp) (e : event P) : sp :=
  match e with
  | EStart o _ a => SP (sp_att s) (sp_det s) (sp_ops s ++ [(o, a)]) (a :: sp_busy s) (sp_posts s) (sp_due s) (sp_held s)
  | EDone o v =>
      match agent_of o s with
      | None => s
      | Some a =>
          let due := match v with Some p => drop_pair (a, p) (sp_due s) | None => sp_due s end in
          let held := match v with Some p => sp_held s ++ [(o, p)] | None => sp_held s end in
          SP (sp_att s) (sp_det s) (sp_ops s) (remove1 a (sp_busy s)) (sp_posts s) due held
      end
  | ECancel _ | EDestroy _ => s
  | EPrim (EAttach a) => SP (a :: sp_att s) (sp_det s) (sp_ops s) (sp_busy s) (sp_posts s) (sp_due s) (sp_held s)
  | EPrim (EDetach a) =>
      SP (remove1 a (sp_att s)) (a :: sp_det s) (sp_ops s) (sp_busy s) (sp_posts s)
         (filter (fun x => negb (Nat.eqb (fst x) a)) (sp_due s)) (sp_held s)
  | EPrim (EDetached a) => SP (sp_att s) (remove1 a (sp_det s)) (sp_ops s) (sp_busy s) (sp_posts s) (sp_due s) (sp_held s)
  | EPrim (EPost p x) =>
      SP (sp_att s) (sp_det s) (sp_ops s) (sp_busy s) (sp_posts s ++ [(p, x)])
         (sp_due s ++ map (fun a => (a, p)) (sp_att s)) (sp_held s)
  | EPrim (EAck o) =>
      SP (sp_att s) (sp_det s) (sp_ops s) (sp_busy s) (sp_posts s) (sp_due s)
         (filter (fun x => negb (Nat.eqb (fst x) o)) (sp_held s))
  | EPrim (EPostDone _) | EPrim (ERead _ _) => s
  end.
Definition spec (tr : trace) : sp := fold_left sp_step tr sp_init.

(** Client rule for one call: an agent is attached when polling or detaching, it has one poll at a time and none when
    detaching, it is attached again only after detach() returned; a handle is dereferenced and acknowledged only while it
    is held (hence acknowledged once). *)
Definition call_ok (s : sp) (e : event P) : Prop :=
  match e with
  | EStart o _ a => In a (sp_att s) /\ ~ In a (sp_busy s)
  | EPrim (EAttach a) => ~ In a (sp_att s) /\ ~ In a (sp_det s)
  | EPrim (EDetach a) => In a (sp_att s) /\ ~ In a (sp_busy s)
  | EPrim (EAck o) => exists p, In (o, p) (sp_held s)
  | EPrim (ERead o _) => exists p, In (o, p) (sp_held s)
  | _ => True
  end.
Definition well_behaved (tr : trace) : Prop := forall t1 e t2, tr = t1 ++ e :: t2 -> call_ok (spec t1) e.

(** The history of agent [a]: whether it is attached, the posts made since it was attached last, the posts its polls have
    returned since then, and its poll operations. *)
Record hist := Hist { h_att : bool; h_posted : list nat; h_received : list nat; h_ops : list nat }.
Definition h_step (a : nat) (h : hist) (e : event P) : hist :=
  match e with
  | EStart o _ b => if Nat.eqb b a then Hist (h_att h) (h_posted h) (h_received h) (o :: h_ops h) else h
  | EDone o (Some p) => if memb o (h_ops h) then Hist (h_att h) (h_posted h) (h_received h ++ [p]) (h_ops h) else h
  | EPrim (EAttach b) => if Nat.eqb b a then Hist true [] [] (h_ops h) else h
  | EPrim (EDetach b) => if Nat.eqb b a then Hist false (h_posted h) (h_received h) (h_ops h) else h
  | EPrim (EPost p _) => Hist (h_att h) (if h_att h then h_posted h ++ [p] else h_posted h) (h_received h) (h_ops h)
  | _ => h
  end.
Definition history (a : nat) (tr : trace) : hist := fold_left (h_step a) tr (Hist false [] [] []).

(** Nobody has to acknowledge post [p] any more. *)
Definition settled (p : nat) (s : sp) : Prop := (forall a, ~ In (a, p) (sp_due s)) /\ (forall o, ~ In (o, p) (sp_held s)).

Definition post_done (p : nat) (e : event P) : bool := match e with EPrim (EPostDone p') => Nat.eqb p' p | _ => false end.
(** How often the receiver of post [p] was notified. *)
Definition completions (p : nat) (tr : trace) : nat := length (filter (post_done p) tr).

(** All calls of ack() and detach() have returned. *)
Definition calls_returned (s : cst P) : Prop :=
  (forall o, match k_hd (c_prim s) o with HErase _ | HComp _ => False | _ => True end) /\
  (forall a, g_det (k_ag (c_prim s) a) = None).

(** A call of ack() or detach() can make a step. *)
Definition call_step (l : label P) : bool :=
  match l with LPrim (KDetStep _) | LPrim (KAckStep _) => true | _ => false end.

End Spec.
