(** Model of arbitrary nestings of the algorithms of include/async/algorithm.hpp, including the concurrent ones: invocable (34-76), transform (82-173),
    ite (179-244), repeat_while (250-330), race_and_cancel (336-443), let (449-507), sequence (513-660), when_all (666-747).

    A started operation is the tree of the operations inside of it, each with what it still has to do.  All parts of the tree run concurrently; a part
    is given by a path.  One step is one call or return of a user function, the start or completion of a leaf operation, one access to ctr_ or n_done_, one
    cancel() call, or set_value() of the receiver of an inner operation.

    In the code the start of the next operation of when_all (race_and_cancel) waits until start() of the previous one has returned; here it does
    not, which allows more interleavings.

    The storage of operations is not modelled (M_Algo.v, M_WhenAll.v and M_Race.v have it).  Instead a step fails if it leads to an execution
    that goes wrong for reasons shown there: the last completion of a when_all before the access of start() to ctr_ (line 713; see C40), and the last completion of
    a race_and_cancel while the first one has cancel() calls left (lines 366-368; see C42).

    Simplifications: values are natural numbers (void is one of them, true is any number but 0); a user function is a name, called with one
    argument, and returns an arbitrary number; one that returns a sender returns a number that selects it; the functors of
    race_and_cancel return the given senders; start_inline() always returns false (include/async/execution.hpp 63-77); lambda is not included
    (M_Algo.v has it). *)
From Coq Require Import List Arith Bool.
From Verif Require Import Lts.
Import ListNotations.

(** Senders; the lists of senders of sequence, when_all and race_and_cancel are not empty (lines 513, 722; a race of none would have an array of size 0) *)
Inductive ex :=
| XInv (f : nat)                               (* invocable(f) *)
| XLeaf (i : nat)                              (* any other sender *)
| XTrans (x : ex) (f : nat)                    (* transform(x, f) *)
| XIte (c : nat) (a b : ex)                    (* ite(c, a, b) *)
| XRep (c g : nat) (body : nat -> ex)          (* repeat_while(c, g) *)
| XLet (p g : nat) (body : nat -> ex)          (* let(p, g) *)
| XSeq (x : ex) (l : list ex)                  (* sequence(x, l...) *)
| XAll (x : ex) (l : list ex)                  (* when_all(x, l...) *)
| XRace (r : nat) (x : ex) (l : list ex).      (* race_and_cancel(...); r is its name *)

(** What follows after a user function returned *)
Inductive kont :=
| KSet                                         (* set_value() with the result, lines 43-50, 88-95, 111-118 *)
| KIte (a b : ex)                              (* line 197 *)
| KRepC (c g : nat) (body : nat -> ex)         (* line 269 *)
| KRepF (c g : nat) (body : nat -> ex)         (* line 271 *)
| KLetP (g : nat) (body : nat -> ex)           (* line 467 *)
| KLetF (body : nat -> ex).                    (* line 468 *)

Inductive op :=
| ONew (x : ex)                                (* connected, not started *)
| OLeaf (i : nat)                              (* running *)
| OFn (f : nat) (k : kont)                     (* in the user function f *)
| OTrans (f : nat) (o : op)                    (* the inner operation with a transform receiver *)
| ORep (c g : nat) (body : nat -> ex) (o : op) (* repeat_while_operation with the operation in its box *)
| OSeq (l : list ex) (o : op)                  (* sequence_operation with the operation in its box; the senders after it *)
| OAll (st ctr : nat) (os : list op)           (* when_all_operation: ops_ that were started (one more: start() has returned); ctr_; ops_ *)
| ORace (r st nd w : nat) (rem : list nat) (os : list op)
                                               (* race_and_cancel_operation: ops_ that were started; n_done_; the first one that completed, if
                                                  n_done_ > 0, and the cs_[j] that its set_value() has yet to cancel; ops_ *)
| OSet (v : nat)                               (* calls set_value(v) of its receiver *)
| OFin.                                        (* this call was made *)

Inductive nevent :=
| NCall (f x : nat) | NRet (f v : nat)         (* user function called with x, returned v *)
| NLeaf (i : nat) | NComp (i v : nat)          (* leaf operation started, completed *)
| NCancel (r j : nat)                          (* the token of the j-th functor of the race r is cancelled *)
| NDone (v : nat).                             (* the receiver of the whole expression is notified *)

(** start(), up to the first visible action *)
Fixpoint o_start (x : ex) : op * list nevent :=
  match x with
  | XInv f => (OFn f KSet, [NCall f 0])                                                      (* lines 43-50 *)
  | XLeaf i => (OLeaf i, [NLeaf i])
  | XTrans y f => let (o, es) := o_start y in (OTrans f o, es)                               (* lines 138-141, 157-160 *)
  | XIte c a b => (OFn c (KIte a b), [NCall c 0])                                            (* line 197 *)
  | XRep c g body => (OFn c (KRepC c g body), [NCall c 0])                                   (* lines 262, 269 *)
  | XLet p g body => (OFn p (KLetP g body), [NCall p 0])                                     (* line 467 *)
  | XSeq y l => let (o, es) := o_start y in (OSeq l o, es)                                   (* line 523 *)
  | XAll y l => (OAll 0 (S (length l)) (map ONew (y :: l)), [])                              (* lines 699-702, 705 *)
  | XRace r y l => (ORace r 0 0 0 [] (map ONew (y :: l)), [])                                (* lines 403-407 *)
  end.
Definition start_of (x : ex) : outcome op nevent := let (o, es) := o_start x in Next o es.
(** put [es] in front *)
Definition emit (es : list nevent) (r : outcome op nevent) : outcome op nevent :=
  match r with Next o es' => Next o (es ++ es') | Disabled => Disabled | Fail f es' => Fail f (es ++ es') end.
Definition within (c : op -> op) (r : outcome op nevent) : outcome op nevent :=
  match r with Next o es => Next (c o) es | Disabled => Disabled | Fail f es => Fail f es end.

(** The user function returned [v]. *)
Definition k_step (f v : nat) (k : kont) : outcome op nevent :=
  emit [NRet f v]
  match k with
  | KSet => Next (OSet v) []
  | KIte a b => start_of (if v =? 0 then b else a)                                           (* lines 197-207 *)
  | KRepC c g body => if v =? 0 then Next (OSet 0) [] else Next (OFn g (KRepF c g body)) [NCall g 0]     (* lines 269-271, 277, 262-263, 288-289 *)
  | KRepF c g body => within (ORep c g body) (start_of (body v))                             (* lines 270-273 *)
  | KLetP g body => Next (OFn g (KLetF body)) [NCall g v]                                    (* lines 467-468 *)
  | KLetF body => start_of (body v)                                                          (* lines 468-469 *)
  end.

(** the i-th element of a list *)
Definition child {A B} (f : A -> B) (d : B) : list A -> nat -> B :=
  fix go l i := match l with [] => d | a :: l' => match i with 0 => f a | S i' => go l' i' end end.

(** set_value() of the receiver of the i-th operation of a when_all, lines 674-678 *)
Definition all_done (st ctr : nat) (os : list op) (i : nat) : outcome op nevent :=
  match ctr with
  | 0 => Fail AssertFailed []                                                                (* line 675 *)
  | 1 => if st <=? length os then Fail AssertFailed []                                       (* line 714, in start(), which is still running *)
         else Next (OSet 0) []                                                               (* line 677 *)
  | S c => Next (OAll st c (set_nth os i OFin)) []
  end.
(** set_value() of the receiver of the i-th operation of a race_and_cancel, lines 363-372 *)
Definition race_done (r st nd w : nat) (rem : list nat) (os : list op) (i : nat) : outcome op nevent :=
  let n := length os in
  let w' := if nd =? 0 then i else w in
  let rem' := if nd =? 0 then filter (fun j => negb (j =? i)) (seq 0 n) else rem in          (* lines 365-367 *)
  if S nd =? n then match rem' with
                    | [] => Next (OSet 0) []                                                 (* line 371 *)
                    | _ => Fail UseAfterFree []                                              (* line 368 in the call of the w-th operation, after line 371 *)
                    end
  else Next (ORace r st (S nd) w' rem' (set_nth os i OFin)) [].

(** One step of the part at the path [p]; [e]: the user function returns, or the leaf operation completes with, a value; otherwise a step of the library *)
Fixpoint o_step (o : op) (p : list nat) (e : option nat) : outcome op nevent :=
  match o with
  | ONew _ | OSet _ | OFin => Disabled
  | OLeaf i => match p, e with [], Some v => Next (OSet v) [NComp i v] | _, _ => Disabled end
  | OFn f k => match p, e with [], Some v => k_step f v k | _, _ => Disabled end
  | OTrans f o' =>
      match o' with
      | OSet w => match p, e with [], None => Next (OFn f KSet) [NCall f w] | _, _ => Disabled end             (* lines 88-95, 111-118 *)
      | _ => within (OTrans f) (o_step o' p e)
      end
  | ORep c g body o' =>
      match o' with
      | OSet _ => match p, e with [], None => Next (OFn c (KRepC c g body)) [NCall c 0] | _, _ => Disabled end (* lines 285-290, 269 *)
      | _ => within (ORep c g body) (o_step o' p e)
      end
  | OSeq l o' =>
      match o' with
      | OSet w => match p, e, l with                                                                          (* lines 577-612 *)
                  | [], None, [] => Next (OSet w) []
                  | [], None, x :: l' => within (OSeq l') (start_of x)
                  | _, _, _ => Disabled
                  end
      | _ => within (OSeq l) (o_step o' p e)
      end
  | OAll st ctr os =>
      match p with
      | [] => match e, nth_error os st with                                                                   (* lines 705-713 *)
              | None, Some (ONew x) => let (o', es) := o_start x in Next (OAll (S st) ctr (set_nth os st o')) es
              | None, None => if st =? length os then Next (OAll (S st) ctr os) [] else Disabled
              | _, _ => Disabled
              end
      | i :: p' =>
          child (fun o' => match o' with
                           | OSet _ => match p', e with [], None => all_done st ctr os i | _, _ => Disabled end
                           | _ => within (fun o'' => OAll st ctr (set_nth os i o'')) (o_step o' p' e)
                           end) Disabled os i
      end
  | ORace r st nd w rem os =>
      match p with
      | [] => match e, nth_error os st with                                                                   (* lines 407-410 *)
              | None, Some (ONew x) => let (o', es) := o_start x in Next (ORace r (S st) nd w rem (set_nth os st o')) es
              | _, _ => Disabled
              end
      | i :: p' =>
          if i =? length os then
            match p', e, rem with                                                                             (* lines 366-368 *)
            | [], None, j :: rem' => Next (ORace r st nd w rem' os) [NCancel r j]
            | _, _, _ => Disabled
            end
          else
          child (fun o' => match o' with
                           | OSet _ => match p', e with [], None => race_done r st nd w rem os i | _, _ => Disabled end
                           | _ => within (fun o'' => ORace r st nd w rem (set_nth os i o'')) (o_step o' p' e)
                           end) Disabled os i
      end
  end.

(** The whole expression: connect(), then one call of start() *)
Definition n_init (x : ex) : op := ONew x.
Inductive nlabel :=
| NLStart                          (* start() *)
| NLStep (p : list nat)            (* a step of the library *)
| NLEnv (p : list nat) (v : nat).  (* a user function returns, or a leaf operation completes *)
Definition n_step (o : op) (l : nlabel) : outcome op nevent :=
  match l, o with
  | NLStart, ONew x => start_of x
  | NLStart, _ => Disabled
  | NLStep [], OSet v => Next OFin [NDone v]
  | NLStep p, _ => o_step o p None
  | NLEnv p v, _ => o_step o p (Some v)
  end.
