(** Happens-before in nestings of the algorithms, see M_Nest.v: the same operations, with what their threads know.

    The events of an execution are numbered.  A view is a list of events that happen before the current point of a thread; a thread knows its own events.
    A receiver is called by the thread of the operation that completes.  ctr_ of when_all and n_done_ of race_and_cancel are accessed by
    read-modify-write operations only, each of which acquires what all earlier ones released, and releases (memory_order_acq_rel).

    A leaf operation is completed by a thread that knows at least what the thread that started it knew then, and nothing more; the same for the return of a user function.  The
    thread of start() of a when_all (race_and_cancel) knows the first event of each operation that it starts; it does not learn what
    they do inside of their start().  All this is the least that the code guarantees.

    Simplifications: those of M_Nest.v. *)
From Coq Require Import List Arith Bool.
From Verif Require Import Lts M_Nest.
Import ListNotations.

Definition kview := list nat.
(** Operations as in M_Nest.v with views: of a thread that completes a leaf or is in a user function; of the caller of set_value(); of start()
    ([vs]); what was released to ctr_ or n_done_ ([vc]); of the thread that calls cancel() ([vw]; cancel() does not make anything known here) *)
Inductive hop :=
| HNew (x : ex)
| HLeaf (i : nat) (v : kview)
| HFn (f : nat) (k : kont) (v : kview)
| HTrans (f : nat) (o : hop)
| HRep (c g : nat) (body : nat -> ex) (o : hop)
| HSeq (l : list ex) (o : hop)
| HAll (st ctr : nat) (vs vc : kview) (os : list hop)
| HRace (r st nd w : nat) (vs vc vw : kview) (rem : list nat) (os : list hop)
| HSet (a : nat) (v : kview)
| HFin.
Inductive hevent :=
| HE (e : nevent)                          (* an event of M_Nest.v *)
| HDone (a : nat) (before : list nat).     (* the receiver of the whole expression is notified; the events that happen before *)

(** the thread with the view v makes the events es, the first of which is the n-th one *)
Definition grow (v : kview) (n : nat) (es : list nevent) : kview := v ++ seq n (length es).

(** start() by a thread with view v *)
Fixpoint h_start (x : ex) (v : kview) (n : nat) : hop * list nevent :=
  match x with
  | XInv f => (HFn f KSet (v ++ [n]), [NCall f 0])
  | XLeaf i => (HLeaf i (v ++ [n]), [NLeaf i])
  | XTrans y f => let (o, es) := h_start y v n in (HTrans f o, es)
  | XIte c a b => (HFn c (KIte a b) (v ++ [n]), [NCall c 0])
  | XRep c g body => (HFn c (KRepC c g body) (v ++ [n]), [NCall c 0])
  | XLet p g body => (HFn p (KLetP g body) (v ++ [n]), [NCall p 0])
  | XSeq y l => let (o, es) := h_start y v n in (HSeq l o, es)
  | XAll y l => (HAll 0 (S (length l)) v [] (map HNew (y :: l)), [])
  | XRace r y l => (HRace r 0 0 0 v [] [] [] (map HNew (y :: l)), [])
  end.
Definition hstart_of (x : ex) (v : kview) (n : nat) : outcome hop nevent := let (o, es) := h_start x v n in Next o es.
Definition hemit (es : list nevent) (r : outcome hop nevent) : outcome hop nevent :=
  match r with Next o es' => Next o (es ++ es') | Disabled => Disabled | Fail f es' => Fail f (es ++ es') end.
Definition hwithin (c : hop -> hop) (r : outcome hop nevent) : outcome hop nevent :=
  match r with Next o es => Next (c o) es | Disabled => Disabled | Fail f es => Fail f es end.

(** The user function returned a, on a thread with the view v; this is the n-th event. *)
Definition hk_step (f a : nat) (k : kont) (v : kview) (n : nat) : outcome hop nevent :=
  let v1 := v ++ [n] in
  hemit [NRet f a]
  match k with
  | KSet => Next (HSet a v1) []
  | KIte x y => hstart_of (if a =? 0 then y else x) v1 (S n)
  | KRepC c g body => if a =? 0 then Next (HSet 0 v1) [] else Next (HFn g (KRepF c g body) (v1 ++ [S n])) [NCall g 0]
  | KRepF c g body => hwithin (HRep c g body) (hstart_of (body a) v1 (S n))
  | KLetP g body => Next (HFn g (KLetF body) (v1 ++ [S n])) [NCall g a]
  | KLetF body => hstart_of (body a) v1 (S n)
  end.

(** set_value() of the receiver of the i-th operation of a when_all, called by a thread with the view v (algorithm.hpp 674-678) *)
Definition hall_done (st ctr : nat) (vs vc : kview) (os : list hop) (i : nat) (v : kview) : outcome hop nevent :=
  let v1 := v ++ vc in                                                    (* line 674: acquire *)
  match ctr with
  | 0 => Fail AssertFailed []
  | 1 => if st <=? length os then Fail AssertFailed [] else Next (HSet 0 v1) []
  | S c => Next (HAll st c vs v1 (set_nth os i HFin)) []                  (* line 674: release *)
  end.
(** the same for a race_and_cancel (algorithm.hpp 363-372) *)
Definition hrace_done (r st nd w : nat) (vs vc vw : kview) (rem : list nat) (os : list hop) (i : nat) (v : kview) : outcome hop nevent :=
  let n := length os in
  let v1 := v ++ vc in                                                    (* line 364: acquire *)
  let rem' := if nd =? 0 then filter (fun j => negb (j =? i)) (seq 0 n) else rem in
  let w' := if nd =? 0 then i else w in
  let vw' := if nd =? 0 then v1 else vw in
  if S nd =? n then match rem' with
                    | [] => Next (HSet 0 v1) []
                    | _ => Fail UseAfterFree []
                    end
  else Next (HRace r st (S nd) w' vs v1 vw' rem' (set_nth os i HFin)) [].    (* line 364: release *)

(** One step, as [o_step]; the first event of the step is the n-th one *)
Fixpoint h_step (o : hop) (p : list nat) (e : option nat) (n : nat) : outcome hop nevent :=
  match o with
  | HNew _ | HSet _ _ | HFin => Disabled
  | HLeaf i v => match p, e with [], Some a => Next (HSet a (v ++ [n])) [NComp i a] | _, _ => Disabled end
  | HFn f k v => match p, e with [], Some a => hk_step f a k v n | _, _ => Disabled end
  | HTrans f o' =>
      match o' with
      | HSet w v => match p, e with [], None => Next (HFn f KSet (v ++ [n])) [NCall f w] | _, _ => Disabled end
      | _ => hwithin (HTrans f) (h_step o' p e n)
      end
  | HRep c g body o' =>
      match o' with
      | HSet _ v => match p, e with [], None => Next (HFn c (KRepC c g body) (v ++ [n])) [NCall c 0] | _, _ => Disabled end
      | _ => hwithin (HRep c g body) (h_step o' p e n)
      end
  | HSeq l o' =>
      match o' with
      | HSet w v => match p, e, l with
                    | [], None, [] => Next (HSet w v) []
                    | [], None, x :: l' => hwithin (HSeq l') (hstart_of x v n)
                    | _, _, _ => Disabled
                    end
      | _ => hwithin (HSeq l) (h_step o' p e n)
      end
  | HAll st ctr vs vc os =>
      match p with
      | [] => match e, nth_error os st with
              | None, Some (HNew x) => let (o', es) := h_start x vs n in Next (HAll (S st) ctr (grow vs n es) vc (set_nth os st o')) es
              | None, None => if st =? length os then Next (HAll (S st) ctr vs (vs ++ vc) os) [] else Disabled   (* line 713 *)
              | _, _ => Disabled
              end
      | i :: p' =>
          child (fun o' => match o' with
                           | HSet _ v => match p', e with [], None => hall_done st ctr vs vc os i v | _, _ => Disabled end
                           | _ => hwithin (fun o'' => HAll st ctr vs vc (set_nth os i o'')) (h_step o' p' e n)
                           end) Disabled os i
      end
  | HRace r st nd w vs vc vw rem os =>
      match p with
      | [] => match e, nth_error os st with
              | None, Some (HNew x) => let (o', es) := h_start x vs n in Next (HRace r (S st) nd w (grow vs n es) vc vw rem (set_nth os st o')) es
              | _, _ => Disabled
              end
      | i :: p' =>
          if i =? length os then
            match p', e, rem with
            | [], None, j :: rem' => Next (HRace r st nd w vs vc (vw ++ [n]) rem' os) [NCancel r j]
            | _, _, _ => Disabled
            end
          else
          child (fun o' => match o' with
                           | HSet _ v => match p', e with [], None => hrace_done r st nd w vs vc vw rem os i v | _, _ => Disabled end
                           | _ => hwithin (fun o'' => HRace r st nd w vs vc vw rem (set_nth os i o'')) (h_step o' p' e n)
                           end) Disabled os i
      end
  end.

(** The whole expression, and the number of events so far *)
Definition hn_init (x : ex) : hop * nat := (HNew x, 0).
Definition h_lift (n : nat) (r : outcome hop nevent) : outcome (hop * nat) hevent :=
  match r with Next o es => Next (o, n + length es) (map HE es) | Disabled => Disabled | Fail f es => Fail f (map HE es) end.
Definition hn_step (s : hop * nat) (l : nlabel) : outcome (hop * nat) hevent :=
  let (o, n) := s in
  match l, o with
  | NLStart, HNew x => h_lift n (hstart_of x [] n)
  | NLStart, _ => Disabled
  | NLStep [], HSet a v => Next (HFin, S n) [HDone a v]
  | NLStep p, _ => h_lift n (h_step o p None n)
  | NLEnv p v, _ => h_lift n (h_step o p (Some v) n)
  end.
