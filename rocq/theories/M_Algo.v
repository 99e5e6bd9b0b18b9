(** Model of the sequential algorithms of include/async/algorithm.hpp: invocable (34-76), transform (82-173), ite (179-244),
    repeat_while (250-330), let (449-507), sequence (513-660), lambda (753-802).

    A sender is an expression over arbitrary leaf senders and user functions.  The operations that connect() creates are objects on a heap;
    each one is stored in the box of the operation that contains it.  The code runs on any number of call stacks: connect() and start() of the
    whole expression run on the first two, each completion of a leaf runs on a new one.  A completion inside of start() of the leaf is the case
    in which the new stack runs to its end before the stack below it goes on.  One step is one call or return in the code.

    Simplifications: values are natural numbers (void is one of them, true is any number but 0); a user function is a name, it is called
    with one argument and returns an arbitrary number, and a user function that returns a sender returns a number that selects the sender; lambda_operation
    is identified with its member op_, to which its start() and its destructor forward; the boxes then_op_ and else_op_ of ite_operation are
    one box, because at most one is constructed; a moved-from object keeps its value, it is not used again. *)
From Coq Require Import List Arith Bool.
From Verif Require Import Lts.
Import ListNotations.

Inductive sender :=
| SInv (f : nat)                                            (* invocable(f) *)
| SLeaf (i : nat)                                           (* any other sender *)
| STrans (s : sender) (f : nat)                             (* transform(s, f) *)
| SIte (c : nat) (a b : sender)                             (* ite(c, a, b) *)
| SRep (c g : nat) (body : nat -> sender)                   (* repeat_while(c, g) *)
| SLet (p g : nat) (body : nat -> sender)                   (* let(p, g) *)
| SSeq (l : list sender)                                    (* sequence(l...) *)
| SLam (g x : nat) (body : nat -> sender).                  (* lambda(g)(x) *)

(** Receivers: the client's; transform receivers (82-127); sequence_operation::receiver<i> (568-619); repeat_while_operation::receiver (281-298) *)
Inductive rcv := RRoot | RTrans (f : nat) (r : rcv) | RSeq (p i : nat) | RRep (p : nat).

(** Operations *)
Inductive kind :=
| NInv (f : nat) | NLeaf (i : nat) (started : bool) | NIte (c : nat) (a b : sender) | NRep (c g : nat) (body : nat -> sender)
| NLet (p g : nat) (body : nat -> sender) | NSeq (l : list sender).
(** An operation: its members, its receiver, the operation in its box *)
Record node := N { n_kind : kind; n_rcv : rcv; n_box : option nat }.
(** Live objects *)
Definition heap := nat -> option node.

(** What follows after a user function returned *)
Inductive fk :=
| FInv (h : nat)                                            (* lines 43-50 *)
| FTr (h : nat) (r : rcv)                                   (* lines 88-95, 111-118 *)
| FIte (p : nat)                                            (* line 197 *)
| FRepC (p : nat) | FRepF (p : nat)                         (* lines 269, 271 *)
| FLetP (p : nat) | FLetF (p : nat)                         (* lines 467, 468 *)
| FLam (body : nat -> sender) (r : rcv) (d : option nat).   (* line 756 *)
(** What a call stack has to do *)
Inductive frame :=
| CConn (s : sender) (r : rcv) (d : option nat)             (* connect(s, r), the result is stored in the box of d (the client's, if None) *)
| CStartBox (p : nat)                                       (* start the operation in the box of p *)
| CStart (a : nat)                                          (* start() *)
| CFn (f x : nat) (k : fk)                                  (* the user function f is running *)
| CSet (h : nat) (r : rcv) (v : nat)                        (* set_value(v) of the receiver r, which is stored in the operation h *)
| CStep (p i : nat)                                         (* do_step<i>() of the sequence_operation p *)
| CLoop (p : nat)                                           (* loop_() of the repeat_while_operation p *)
| CAfter (p : nat) (i : option nat).                        (* after start_inline() in loop_() of p, or in do_step<i>() *)

(** Objects; the next address; call stacks; operations of leaf senders that were started and have not completed *)
Record mst := MS { m_heap : heap; m_nxt : nat; m_thr : list (list frame); m_leafs : list nat }.
(** connect() of the whole expression *)
Definition m_init (e : sender) : mst := MS (fun _ => None) 0 [[CConn e RRoot None]] [].

Inductive mlabel :=
| LStart                   (* the client calls start() *)
| LStep (k : nat)          (* one step of stack k *)
| LFn (k v : nat)          (* the user function on top of stack k returns v *)
| LComp (a v : nat)        (* the operation a of a leaf sender completes with v *)
| LDestroy.                (* the client destroys the operation *)
Inductive mevent :=
| ECall (f x : nat) | ERet (f v : nat)     (* user function called with x, returned v *)
| ELeaf (i : nat) | EComp (i v : nat)      (* leaf sender started, completed *)
| EStart | EDone (v : nat) | EDestroy.     (* client: start(), receiver notified, destroyed *)

(** start_inline() always returns false (include/async/execution.hpp 63-77) *)
Definition inline_result : bool := false.

Definition with_box (n : node) (b : option nat) : node := N (n_kind n) (n_rcv n) b.
(** Construct an operation in the box of [d]. *)
Definition alloc (s : mst) (kd : kind) (r : rcv) (d : option nat) : mst + failure :=
  let H := upd (m_heap s) (m_nxt s) (Some (N kd r None)) in
  match d with
  | None => inl (MS H (S (m_nxt s)) (m_thr s) (m_leafs s))
  | Some p => match m_heap s p with
              | None => inr UseAfterFree
              | Some n => match n_box n with
                          | Some _ => inr AssertFailed      (* constructed over a live operation *)
                          | None => inl (MS (upd H p (Some (with_box n (Some (m_nxt s))))) (S (m_nxt s)) (m_thr s) (m_leafs s))
                          end
              end
  end.

(** The destructor of the operation [a].  ite_operation destroys the operation in its box if there is one (lines 189-194), let_operation
    asserts that there is one (lines 461-463), repeat_while_operation and sequence_operation have no destructor.  [n] bounds the depth. *)
Fixpoint destroy (n : nat) (H : heap) (a : nat) : heap + failure :=
  match n with
  | 0 => inr BadUnlink
  | S n' =>
    match H a with
    | None => inr UseAfterFree
    | Some x =>
      let inner := match n_kind x, n_box x with
                   | NIte _ _ _, Some b | NLet _ _ _, Some b => destroy n' H b
                   | NLet _ _ _, None => inr AssertFailed
                   | _, _ => inl H
                   end in
      match inner with inr f => inr f | inl H' => inl (upd H' a None) end
    end
  end.
(** Destroy the operation in the box of [p]. *)
Definition destroy_box (s : mst) (p : nat) : heap + failure :=
  match m_heap s p with
  | None => inr UseAfterFree
  | Some n => match n_box n with
              | None => inr AssertFailed
              | Some c => match destroy (m_nxt s) (m_heap s) c with
                          | inr f => inr f
                          | inl H => inl (upd H p (Some (with_box n None)))
                          end
              end
  end.

(** Update of the stack of thread k; of the objects (helpers) *)
Definition with_thr (s : mst) (k : nat) (fs : list frame) : mst := MS (m_heap s) (m_nxt s) (set_nth (m_thr s) k fs) (m_leafs s).
Definition with_heap (s : mst) (H : heap) : mst := MS H (m_nxt s) (m_thr s) (m_leafs s).

(** The top frame is executed; [fs] are the frames below it. *)
Definition frame_step (s : mst) (k : nat) (fr : frame) (fs : list frame) : outcome mst mevent :=
  let go s' fs' es := Next (with_thr s' k fs') es in
  let make kd r d := match alloc s kd r d with inl s' => go s' fs [] | inr f => Fail f [] end in
  match fr with
  | CConn x r d =>
      match x with
      | SInv f => make (NInv f) r d
      | SLeaf i => make (NLeaf i false) r d
      | STrans x' f => go s (CConn x' (RTrans f r) d :: fs) []                           (* lines 138-141, 157-160 *)
      | SIte c a b => make (NIte c a b) r d
      | SRep c g body => make (NRep c g body) r d
      | SLet p g body => make (NLet p g body) r d
      | SSeq l => make (NSeq l) r d
      | SLam g x body => go s (CFn g x (FLam body r d) :: fs) [ECall g x]                (* line 756 *)
      end
  | CStartBox p =>
      match m_heap s p with
      | None => Fail UseAfterFree []
      | Some n => match n_box n with None => Fail NullDeref [] | Some a => go s (CStart a :: fs) [] end
      end
  | CStart a =>
      match m_heap s a with
      | None => Fail UseAfterFree []
      | Some n =>
        match n_kind n with
        | NInv f => go s (CFn f 0 (FInv a) :: fs) [ECall f 0]                            (* lines 43-50 *)
        | NLeaf i false => go (MS (upd (m_heap s) a (Some (N (NLeaf i true) (n_rcv n) (n_box n)))) (m_nxt s) (m_thr s) (m_leafs s ++ [a])) fs [ELeaf i]
        | NLeaf _ true => Fail AssertFailed []                                           (* started twice *)
        | NIte c _ _ => go s (CFn c 0 (FIte a) :: fs) [ECall c 0]                        (* line 197 *)
        | NRep _ _ _ => go s (CLoop a :: fs) []                                          (* line 262 *)
        | NLet p _ _ => go s (CFn p 0 (FLetP a) :: fs) [ECall p 0]                       (* line 467 *)
        | NSeq _ => go s (CStep a 0 :: fs) []                                            (* line 523 *)
        end
      end
  | CFn _ _ _ => Disabled
  | CSet h r v =>
      match m_heap s h with
      | None => Fail UseAfterFree []
      | Some _ =>
        match r with
        | RRoot => go s fs [EDone v]
        | RTrans f r' => go s (CFn f v (FTr h r') :: fs) [ECall f v]                     (* lines 88-95, 111-118 *)
        | RSeq p i =>                                                                    (* lines 577-612 *)
            match destroy_box s p with
            | inr f => Fail f []
            | inl H =>
              match H p with
              | Some (N (NSeq l) dr _) => if S i =? length l then go (with_heap s H) (CSet p dr v :: fs) [] else go (with_heap s H) (CStep p (S i) :: fs) []
              | _ => Fail UseAfterFree []
              end
            end
        | RRep p =>                                                                      (* lines 285-290 *)
            match destroy_box s p with
            | inr f => Fail f []
            | inl H => go (with_heap s H) (CLoop p :: fs) []
            end
        end
      end
  | CStep p i =>                                                                         (* lines 532-566 *)
      match m_heap s p with
      | Some (N (NSeq l) _ _) =>
          match nth_error l i with
          | Some x => go s (CConn x (RSeq p i) (Some p) :: CStartBox p :: CAfter p (Some i) :: fs) []
          | None => Fail AssertFailed []
          end
      | _ => Fail UseAfterFree []
      end
  | CLoop p =>                                                                           (* line 269 *)
      match m_heap s p with
      | Some (N (NRep c _ _) _ _) => go s (CFn c 0 (FRepC p) :: fs) [ECall c 0]
      | _ => Fail UseAfterFree []
      end
  | CAfter p i =>
      if inline_result then
        match i, m_heap s p with
        | Some i', Some (N (NSeq l) _ _) => go s (if S i' =? length l then fs else CStep p (S i') :: fs) []      (* lines 541-547, 562-565 *)
        | None, Some _ => match destroy_box s p with inr f => Fail f [] | inl H => go (with_heap s H) (CLoop p :: fs) [] end   (* line 275 *)
        | _, _ => Fail UseAfterFree []
        end
      else go s fs []                                                                    (* line 274: return false; lines 541, 562 *)
  end.

(** The user function returned [v]. *)
Definition fn_step (s : mst) (k : nat) (f v : nat) (kf : fk) (fs : list frame) : outcome mst mevent :=
  let go fs' es := Next (with_thr s k fs') (ERet f v :: es) in
  match kf with
  | FInv h => match m_heap s h with Some n => go (CSet h (n_rcv n) v :: fs) [] | None => Fail UseAfterFree [ERet f v] end
  | FTr h r => match m_heap s h with Some n => go (CSet h r v :: fs) [] | None => Fail UseAfterFree [ERet f v] end
  | FIte p =>                                                                            (* lines 197-207 *)
      match m_heap s p with
      | Some (N (NIte _ a b) r _) => go (CConn (if v =? 0 then b else a) r (Some p) :: CStartBox p :: fs) []
      | _ => Fail UseAfterFree [ERet f v]
      end
  | FRepC p =>                                                                           (* lines 269-271, 262-263, 288-289 *)
      match m_heap s p with
      | Some (N (NRep _ g _) r _) => if v =? 0 then go (CSet p r 0 :: fs) [] else go (CFn g 0 (FRepF p) :: fs) [ECall g 0]
      | _ => Fail UseAfterFree [ERet f v]
      end
  | FRepF p =>                                                                           (* lines 270-273 *)
      match m_heap s p with
      | Some (N (NRep _ _ body) _ _) => go (CConn (body v) (RRep p) (Some p) :: CStartBox p :: CAfter p None :: fs) []
      | _ => Fail UseAfterFree [ERet f v]
      end
  | FLetP p =>                                                                           (* lines 467-468 *)
      match m_heap s p with
      | Some (N (NLet _ g _) _ _) => go (CFn g v (FLetF p) :: fs) [ECall g v]
      | _ => Fail UseAfterFree [ERet f v]
      end
  | FLetF p =>                                                                           (* lines 468-469 *)
      match m_heap s p with
      | Some (N (NLet _ _ body) r _) => go (CConn (body v) r (Some p) :: CStartBox p :: fs) []
      | _ => Fail UseAfterFree [ERet f v]
      end
  | FLam body r d => go (CConn (body v) r d :: fs) []                                    (* line 756 *)
  end.

(** One step: the client calls start() of the whole operation, a thread executes the top of its stack, or a leaf completes (the code of each step: see the functions above) *)
Definition m_step (s : mst) (l : mlabel) : outcome mst mevent :=
  match l with
  | LStart => match m_thr s with
              | [[]] => match m_heap s 0 with
                        | None => Fail UseAfterFree [EStart]
                        | Some _ => Next (MS (m_heap s) (m_nxt s) [[]; [CStart 0]] (m_leafs s)) [EStart]
                        end
              | _ => Disabled
              end
  | LStep k => match nth_error (m_thr s) k with Some (fr :: fs) => frame_step s k fr fs | _ => Disabled end
  | LFn k v => match nth_error (m_thr s) k with Some (CFn f _ kf :: fs) => fn_step s k f v kf fs | _ => Disabled end
  | LComp a v =>
      if memb a (m_leafs s) then
        match m_heap s a with
        | Some (N (NLeaf i _) r _) => Next (MS (m_heap s) (m_nxt s) (m_thr s ++ [[CSet a r v]]) (remove1 a (m_leafs s))) [EComp i v]
        | _ => Fail UseAfterFree []
        end
      else Disabled
  | LDestroy => match nth_error (m_thr s) 0, m_heap s 0 with
                | Some [], Some _ => match destroy (m_nxt s) (m_heap s) 0 with inl H => Next (with_heap s H) [EDestroy] | inr f => Fail f [EDestroy] end
                | _, _ => Disabled
                end
  end.
