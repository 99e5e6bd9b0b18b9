(** Specification of promise / future handles: who owns which shared state, as if handles were plain shared pointers. *)
From Coq Require Import List Arith Bool.
From Verif Require Import Lts M_Handles.
Import ListNotations.

(** owners: for each handle created so far the state it refers to (None: none, or destroyed); number of states created *)
Record sp := SP { sp_own : list (option nat); sp_next : nat }.
Definition sp_init : sp := SP [] 0.
Definition own (a : sp) (h : nat) : option nat := match nth_error (sp_own a) h with Some v => v | None => None end.
Definition put (a : sp) (h : nat) (v : option nat) : sp := SP (set_nth (sp_own a) h v) (sp_next a).
Definition add (a : sp) (v : option nat) : sp := SP (sp_own a ++ [v]) (sp_next a).

Definition sp_call (a : sp) (c : hcall) : sp :=
  match c with
  | NewPromise => SP (sp_own a ++ [Some (sp_next a)]) (sp_next a + 1)
  | DefFuture => add a None
  | GetFuture h | CopyFuture h => add a (own a h)
  | MoveFuture h | MovePromise h => add (put a h None) (own a h)
  | CopyAssign g f => put a g (own a f)
  | MoveAssign g f | SwapFuture g f | SwapPromise g f => put (put a g (own a f)) f (own a g)
  | AssignPromise p q => if Nat.eqb p q then a else put (put a q None) p (own a q)
  | SetValue h | Drop h => put a h None
  | UseFuture _ => a
  end.

(** The calls in a trace and the ownership they lead to *)
Definition calls_of (tr : list hevent) : list hcall := flat_map (fun e => match e with ECall c => [c] | EFree _ => [] end) tr.
Definition owners (cs : list hcall) : sp := fold_left sp_call cs sp_init.

(** Some handle owns state [k]. *)
Definition owned (a : sp) (k : nat) : Prop := exists h, own a h = Some k.

(** How often state [k] was freed. *)
Fixpoint frees (k : nat) (tr : list hevent) : nat :=
  match tr with
  | [] => 0
  | EFree k' :: tr' => (if Nat.eqb k' k then 1 else 0) + frees k tr'
  | ECall _ :: tr' => frees k tr'
  end.

(** Client rule for one call: set_value() and get() need a state; a future is not assigned from an empty one, nor from
    itself if no other handle owns its state. *)
Definition call_ok (a : sp) (c : hcall) : Prop :=
  match c with
  | SetValue h | UseFuture h => own a h <> None
  | CopyAssign g f => exists k, own a f = Some k /\ (g = f -> exists h, h <> g /\ own a h = Some k)
  | _ => True
  end.
Definition calls_ok (tr : list hevent) : Prop :=
  forall c1 c c2, calls_of tr = c1 ++ c :: c2 -> call_ok (owners c1) c.
