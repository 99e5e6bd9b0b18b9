(** What the variables of type generator<T> hold, as a function of the calls. *)
From Coq Require Import List Arith Bool.
From Verif Require Import Lts M_Generator S_Generator M_GeneratorMove.
Import ListNotations.

(** For each variable that exists the coroutine it stands for, if any *)
Definition gvars := nat -> option (option nat).
Definition gvars_step (m : gvars) (e : wevent) : gvars :=
  match e with
  | WCall x f => upd m x (Some (Some f))
  | WCtor y x => upd (upd m x (Some None)) y (m x)
  | WAssign y x => if y =? x then m else upd (upd m x (Some None)) y (m x)
  | WDestroy x => upd m x None
  | WB _ _ | WSender _ _ | WNext _ _ => m
  end.
Definition gvars_of (tr : list wevent) : gvars := fold_left gvars_step tr (fun _ => None).

(** The variable x stands for the coroutine f. *)
Definition stands (tr : list wevent) (x f : nat) : Prop := gvars_of tr x = Some (Some f).
(** What happened to coroutine f *)
Definition frame (f : nat) (tr : list wevent) : list gevent := flat_map (fun e => match e with WB f' e => if f' =? f then [e] else [] | _ => [] end) tr.
Definition created (f : nat) (tr : list wevent) : Prop := exists x, In (WCall x f) tr.
(** How often it was destroyed *)
Definition destroyed (f : nat) (tr : list wevent) : nat := length (filter (fun e => match e with GEDestroy => true | _ => false end) (frame f tr)).

(** The sender q was created by next() of a variable that stood for the coroutine f; that stood for none. *)
Definition sender_of (tr : list wevent) (q f : nat) : Prop := exists t1 x t2, tr = t1 ++ WSender q x :: t2 /\ stands t1 x f.
Definition sender_null (tr : list wevent) (q : nat) : Prop := exists t1 x t2, tr = t1 ++ WSender q x :: t2 /\ gvars_of t1 x = Some None.

(** Each coroutine is used as S_Generator.v says. *)
Definition w_rule (tr : list wevent) : Prop := forall f, g_rule (frame f tr).
