(** The cancellable waits of M_Wait together with the happens-before relation of the C++ memory model.

    A run of this model is a run of M_Wait (the label of M_Wait is part of the label) that also records the accesses to non-atomic memory
    and the accesses that happen before each point of each thread.  The synchronization consists of the mutex of the primitive, the
    mutex of each cancellation_event and the fetch_or on state_ of each operation (cancellation.hpp 287, memory_order_acq_rel).
    state_ is accessed by read-modify-write operations only, hence each one reads the latest value and the interleavings of M_Wait
    are the executions, provided that there is no data race; a data race is a failure of this model.

    Accesses to the memory of an operation: its construction and its destruction (which conflict with everything else), the members that
    its primitive writes ([FSt]: st_, value, cancelled_, ...), its hook in a list of the primitive or of a waker ([FHook]), its hook in a list of
    an event or of a canceller ([FEvH]), event_ ([FEvP]), and all accesses that do not conflict with each other but with the destruction: reading
    constant members, calling virtual functions, atomic accesses ([FUse]).

    Simplifications: an access to a list accesses the hooks of all its nodes; a thread that calls start(), cancel() or
    another function of the primitive knows an arbitrary set of earlier accesses (it may have synchronized by other means). *)
From Coq Require Import List Arith Bool.
From Verif Require Import Lts M_Wait.
Import ListNotations.

Inductive fld := FNew | FDel | FSt | FHook | FEvH | FEvP | FUse (x : path).
(** Who makes a call that completes operations: a call of the primitive that locks its mutex, one that does not, cancel() *)
Inductive caller := KLocked | KFree | KCancel.
(** An access to the operation o; an access of a client to its own data just before it calls the library, and the
    operations that the call takes over in order to complete them *)
Inductive acc := AObj (o : nat) (f : fld) | ACall (c : caller) (os : list nat).
(** Accesses that happen before a point, as positions in the log *)
Notation hb := (list nat).
(** The accesses in the order of the execution, each one with those that happen before it *)
Notation log := (list (acc * hb)).

(** Equality of paths and of kinds of accesses; construction and destruction access the whole object; two accesses conflict if they access the same field *)
Definition path_eqb (x y : path) : bool :=
  match x, y with PathL, PathL | PathP, PathP | PathC, PathC => true | _, _ => false end.
Definition fld_eqb (f g : fld) : bool :=
  match f, g with
  | FNew, FNew | FDel, FDel | FSt, FSt | FHook, FHook | FEvH, FEvH | FEvP, FEvP => true
  | FUse x, FUse y => path_eqb x y
  | _, _ => false
  end.
Definition whole (f : fld) : bool := match f with FNew | FDel => true | _ => false end.
Definition conflict (f g : fld) : bool := fld_eqb f g || whole f || whole g.
(** all accesses that conflict with an access to f of o are in v *)
Definition ordered (g : log) (v : hb) (o : nat) (f : fld) : bool :=
  forallb (fun i => match nth_error g i with
                    | Some (AObj o' f', _) => negb ((o' =? o) && conflict f' f) || memb i v
                    | _ => true
                    end) (seq 0 (length g)).
(** the accesses that happen before those in v *)
Definition before (g : log) (i : nat) : hb := match nth_error g i with Some (_, p) => p | None => [] end.
Definition closure (g : log) (v : hb) : hb := let w := filter (fun i => i <? length g) v in w ++ flat_map (before g) w.

(** The log; what the last unlock of the mutexes and the newest message of state_ of each operation release *)
Record mem := Mem { m_log : log; m_mu : hb; m_ev : nat -> hb; m_st : nat -> hb }.
Definition mem_init : mem := Mem [] [] (fun _ => []) (fun _ => []).

Inductive act :=
| ALock | AUnlock                        (* mutex of the primitive *)
| ALockEv (e : nat) | AUnlockEv (e : nat) (* _mutex of event e *)
| AFetchOr (o : nat)                     (* state_ of operation o *)
| ATouch (o : nat) (f : fld)             (* access to non-atomic memory *)
| AClient (c : caller) (os : list nat).

Section HB.
Variable P : prim.
Variable eager : bool.                   (* as in M_Wait *)
Variable lk : PS P -> PL P -> bool.      (* whether a step of the primitive locks its mutex *)
(** Whether the fetch_or of transition_() acquires and releases; both in the code (cancellation.hpp 287) *)
Variables acq rel : bool.

(** None: data race *)
Definition exec1 (m : mem) (v : hb) (a : act) : option (mem * hb) :=
  match a with
  | ALock => Some (m, v ++ m_mu m)
  | AUnlock => Some (Mem (m_log m) v (m_ev m) (m_st m), v)
  | ALockEv e => Some (m, v ++ m_ev m e)
  | AUnlockEv e => Some (Mem (m_log m) (m_mu m) (upd (m_ev m) e v) (m_st m), v)
  | AFetchOr o =>
      let v' := if acq then v ++ m_st m o else v in
      Some (Mem (m_log m) (m_mu m) (m_ev m) (if rel then upd (m_st m) o (m_st m o ++ v') else m_st m), v')
  | ATouch o f =>
      if ordered (m_log m) v o f
      then Some (Mem (m_log m ++ [(AObj o f, v)]) (m_mu m) (m_ev m) (m_st m), length (m_log m) :: v) else None
  | AClient c os => Some (Mem (m_log m ++ [(ACall c os, v)]) (m_mu m) (m_ev m) (m_st m), length (m_log m) :: v)
  end.
Fixpoint exec (m : mem) (v : hb) (l : list act) : option (mem * hb) :=
  match l with
  | [] => Some (m, v)
  | a :: l' => match exec1 m v a with Some (m', v') => exec m' v' l' | None => None end
  end.

(** The state of M_Wait; the memory; the nodes that are linked in the primitive; what happens before the current points of the three
    activities of each operation, of the wakers and of the cancellers, and before the notification of each receiver *)
Record hst := H { h_s : cst P; h_m : mem; h_q : list nat; h_v : path -> nat -> hb; h_wk : list hb; h_cn : list hb; h_fin : nat -> hb }.
Definition h_init : hst := H (c_init P) mem_init [] (fun _ _ => []) [] [] (fun _ => []).

Inductive hlabel :=
| HStart (o : nat) (tok : option nat) (a : PA P) (v : hb)  (* v: accesses that happen before the call *)
| HPath (o : nat) (x : path)
| HCancel (e : nat) (v : hb)
| HCanNext (k : nat)
| HWakeNext (k : nat)
| HPrim (l : PL P) (v : hb)
| HDestroy (o : nat).

(** The step of M_Wait.v without happens-before *)
Definition base (l : hlabel) : label P :=
  match l with
  | HStart o tok a _ => LStart o tok a
  | HPath o x => LPath o x
  | HCancel e _ => LCancel e
  | HCanNext k => LCanNext k
  | HWakeNext k => LWakeNext k
  | HPrim l _ => LPrim l
  | HDestroy o => LDestroy o
  end.

Inductive hevent :=
| HE (e : event P) (v : hb)                     (* an event of M_Wait, and the accesses that happen before it *)
| HCall (c : caller) (d : nat) (os : list nat). (* a call that takes over the operations os; d: position of the client's access before it *)

(** Access to the hook of the node; to the hook of the resolver *)
Definition hook (o : nat) : act := ATouch o FHook.
Definition evh (o : nat) : act := ATouch o FEvH.

(** One step of an activity of an operation, see path_step in M_Wait *)
Definition path_acts (h : hst) (o : nat) (x : path) : list act :=
  let s := h_s h in
  let r := c_op s o in
  ATouch o (FUse x) ::
  match get_pc x r with
  | PListen =>                                  (* cancellation.hpp 241-257 *)
      ATouch o FEvP ::
      match o_tok r with
      | None => []
      | Some e => ALockEv e :: (if e_req (c_ev s e) then [] else map evh (e_cbs (c_ev s e) ++ [o])) ++ [AUnlockEv e]
      end
  | PTry =>                                     (* try_cancel() of the primitive *)
      ALock :: ATouch o FSt :: (match p_try P (c_prim s) o with TOk _ true => map hook (h_q h) | _ => [] end) ++ [AUnlock]
  | PTrans _ => [AFetchOr o]                    (* cancellation.hpp 287 *)
  | PUnreg =>                                   (* cancellation.hpp 300-307 *)
      ATouch o FEvP ::
      match o_tok r with
      | None => []
      | Some e => ALockEv e :: (if e_req (c_ev s e) then [] else map evh (e_cbs (c_ev s e))) ++ [AUnlockEv e]
      end
  | PResume => [ATouch o FSt]                   (* resume_fn reads the result *)
  | _ => []
  end.

Definition rest_of (lps : list loop) (k : nat) : list nat := match nth_error lps k with Some lp => lp_rest lp | None => [] end.
(** the operations that a step of the primitive takes over *)
Definition taken (s : cst P) (l : PL P) : list nat := match p_step P (c_prim s) l with POk _ t _ => t | _ => [] end.
Definition call_kind (s : cst P) (l : PL P) : caller := if lk (c_prim s) l then KLocked else KFree.
Definition queued (s : cst P) (o : nat) (a : PA P) : bool := match p_start P (c_prim s) o a with SQueued _ _ => true | _ => false end.

Definition acts (h : hst) (l : hlabel) : list act :=
  let s := h_s h in
  match l with
  | HStart o _ a _ =>                           (* the constructor and the critical section of start() *)
      [ATouch o FNew; ATouch o (FUse PathL); ALock; ATouch o FSt] ++ (if queued s o a then map hook (h_q h ++ [o]) else []) ++ [AUnlock]
  | HPath o x => path_acts h o x
  | HCancel e _ =>                              (* cancellation.hpp 336-340 *)
      AClient KCancel (e_cbs (c_ev s e)) :: ALockEv e :: map evh (e_cbs (c_ev s e)) ++ [AUnlockEv e]
  | HCanNext k =>                               (* cancellation.hpp 342-345 *)
      map evh (rest_of (c_cn s) k) ++ match rest_of (c_cn s) k with o :: _ => [ATouch o (FUse PathC)] | [] => [] end
  | HWakeNext k =>
      map hook (rest_of (c_wk s) k) ++ match rest_of (c_wk s) k with o :: _ => [ATouch o (FUse PathP)] | [] => [] end
  | HPrim l _ =>
      AClient (call_kind s l) (taken s l) ::
      if lk (c_prim s) l then ALock :: map hook (h_q h) ++ map (fun o => ATouch o FSt) (taken s l) ++ [AUnlock] else []
  | HDestroy o => [ATouch o FDel]
  end.

(** What happens before the step.  The client destroys an operation after its receiver was notified; if [eager] is false, it also waits for the calls
    on that operation to return. *)
Definition tview (h : hst) (l : hlabel) : hb :=
  match l with
  | HStart _ _ _ v | HCancel _ v | HPrim _ v => closure (m_log (h_m h)) v
  | HPath o x => h_v h x o
  | HCanNext k => nth k (h_cn h) []
  | HWakeNext k => nth k (h_wk h) []
  | HDestroy o => if eager then h_fin h o else h_fin h o ++ h_v h PathL o ++ h_v h PathP o ++ h_v h PathC o
  end.

(** Update of the view of activity x of operation o (helper) *)
Definition updp (f : path -> nat -> hb) (x : path) (o : nat) (v : hb) : path -> nat -> hb :=
  fun y => if path_eqb y x then upd (f y) o v else f y.

(** The state after the step: the new state of M_Wait, the new memory, and the new view of the thread *)
Definition store (h : hst) (l : hlabel) (s' : cst P) (done : bool) (m' : mem) (v : hb) : hst :=
  let s := h_s h in
  match l with
  | HStart o _ a _ => H s' m' (if queued s o a then h_q h ++ [o] else h_q h) (updp (h_v h) PathL o v) (h_wk h) (h_cn h) (h_fin h)
  | HPath o x =>
      let q := match get_pc x (c_op s o), p_try P (c_prim s) o with PTry, TOk _ true => remove1 o (h_q h) | _, _ => h_q h end in
      H s' m' q (updp (h_v h) x o v) (h_wk h) (h_cn h) (if done then upd (h_fin h) o v else h_fin h)
  | HCancel _ _ => H s' m' (h_q h) (h_v h) (h_wk h) (h_cn h ++ [v]) (h_fin h)
  | HCanNext k =>
      H s' m' (h_q h) (match rest_of (c_cn s) k with o :: _ => updp (h_v h) PathC o v | [] => h_v h end) (h_wk h) (set_nth (h_cn h) k v) (h_fin h)
  | HWakeNext k =>
      H s' m' (h_q h) (match rest_of (c_wk s) k with o :: _ => updp (h_v h) PathP o v | [] => h_v h end) (set_nth (h_wk h) k v) (h_cn h) (h_fin h)
  | HPrim l _ => H s' m' (filter (fun o => negb (memb o (taken s l))) (h_q h)) (h_v h) (h_wk h ++ [v]) (h_cn h) (h_fin h)
  | HDestroy _ => H s' m' (h_q h) (h_v h) (h_wk h) (h_cn h) (h_fin h)
  end.

(** The call that takes over operations, as an event *)
Definition call_event (h : hst) (l : hlabel) : list hevent :=
  match l with
  | HCancel e _ => [HCall KCancel (length (m_log (h_m h))) (e_cbs (c_ev (h_s h) e))]
  | HPrim l _ => [HCall (call_kind (h_s h) l) (length (m_log (h_m h))) (taken (h_s h) l)]
  | _ => []
  end.

(** Is the receiver of an operation notified? *)
Definition notifies (es : list (event P)) : bool := existsb (fun e => match e with EDone _ _ => true | _ => false end) es.

(** A step of M_Wait.v together with its accesses *)
Definition hstep (h : hst) (l : hlabel) : outcome hst hevent :=
  match step P eager (h_s h) (base l) with
  | Disabled => Disabled
  | Fail f es => Fail f (map (fun e => HE e []) es)
  | Next s' es =>
      match exec (h_m h) (tview h l) (acts h l) with
      | None => Fail DataRace []
      | Some (m', v) => Next (store h l s' (notifies es) m' v) (call_event h l ++ map (fun e => HE e v) es)
      end
  end.

End HB.
Arguments H {P}. Arguments h_s {P}. Arguments h_m {P}. Arguments h_q {P}. Arguments h_v {P}. Arguments h_wk {P}. Arguments h_cn {P}. Arguments h_fin {P}.
Arguments HStart {P}. Arguments HPath {P}. Arguments HCancel {P}. Arguments HCanNext {P}. Arguments HWakeNext {P}. Arguments HPrim {P}. Arguments HDestroy {P}.
Arguments base {P}. Arguments HE {P}. Arguments HCall {P}. Arguments path_acts {P}. Arguments taken {P}. Arguments queued {P}.
Arguments store {P}. Arguments notifies {P}. Arguments tview {P}.
