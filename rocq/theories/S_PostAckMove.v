(** What the variables of type post_ack_handle hold, as a function of the calls. *)
From Coq Require Import List Arith Bool.
From Verif Require Import Lts M_Wait S_Wait M_PostAck S_PostAck M_PostAckMove.
Import ListNotations.

(** A variable holds nothing, a handle that is not acknowledged, or one that is (named after the poll operation that returned it). *)
Inductive hold := Empty | Holds (o : nat) | Acked (o : nat).

Section Spec.
Context {T : Type}.
Notation P := (post_ack T).
Notation vtrace := (list (vevent (T := T))).
Definition vars := nat -> option hold.
Definition vars_step (m : vars) (e : vevent (T := T)) : vars :=
  match e with
  | VNew x o => upd m x (Some (Holds o))
  | VNull x => upd m x (Some Empty)
  | VCtor y x => upd (upd m y (m x)) x (Some Empty)
  | VAssign y x => if y =? x then m else upd (upd m y (m x)) x (Some Empty)
  | VSwap x y => upd (upd m x (m y)) y (m x)
  | VDestroy x => upd m x None
  | VAcked x => match m x with Some (Holds o) => upd m x (Some (Acked o)) | _ => m end
  | VB _ | VAck _ | VRead _ | VBool _ _ => m
  end.
Definition vars_of (tr : vtrace) : vars := fold_left vars_step tr (fun _ => None).

(** x holds the handle that the poll operation o returned. *)
Definition owner (m : vars) (x o : nat) : Prop := m x = Some (Holds o) \/ m x = Some (Acked o).

(** ack() is running on x *)
Definition acking_step (b : nat -> bool) (e : vevent (T := T)) : nat -> bool := match e with VAck x => upd b x true | VAcked x => upd b x false | _ => b end.
Definition acking (tr : vtrace) : nat -> bool := fold_left acking_step tr (fun _ => false).

(** The variables that a call accesses *)
Definition touched (e : vevent (T := T)) : list nat :=
  match e with
  | VNew x _ | VNull x | VDestroy x | VAck x | VRead x | VBool x _ => [x]
  | VCtor y x | VAssign y x | VSwap y x => [y; x]
  | VAcked _ | VB _ => []
  end.
(** No variable is used while ack() is running on it. *)
Definition quiet (tr : vtrace) : Prop := forall t1 e t2, tr = t1 ++ e :: t2 -> forall x, In x (touched e) -> acking t1 x = false.

(** The calls on the agents and posts *)
Definition api (tr : vtrace) : list (event P) := flat_map (fun e => match e with VB e => [e] | _ => [] end) tr.

(** How often the handle that the poll operation o returned was acknowledged *)
Definition acks (o : nat) (tr : list (event P)) : nat := length (filter (fun e : event P => match e with EPrim (EAck o') => o' =? o | _ => false end) tr).

(** ack(), * and -> are applied to variables that hold a handle that is not acknowledged; variables that are destroyed or assigned to do not hold one. *)
Definition holds_ok (m : vars) (e : vevent (T := T)) : Prop :=
  match e with
  | VAck x | VRead x => exists o, m x = Some (Holds o)
  | VDestroy x => forall o, m x <> Some (Holds o)
  | VAssign y x => y <> x -> forall o, m y <> Some (Holds o)
  | _ => True
  end.
(** The rules of S_PostAck.v without those about handles *)
Definition agent_ok (s : @sp T) (e : event P) : Prop := match e with EPrim (EAck _) | EPrim (ERead _ _) => True | _ => call_ok s e end.
Definition v_rule (tr : vtrace) : Prop :=
  quiet tr /\ (forall t1 e t2, tr = t1 ++ e :: t2 -> holds_ok (vars_of t1) e) /\
  forall t1 e t2, api tr = t1 ++ e :: t2 -> agent_ok (spec t1) e.
End Spec.
