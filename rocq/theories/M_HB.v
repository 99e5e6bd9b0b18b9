(** The happens-before relation of the C++ memory model for executions of another model.

    A run of this model is a run of a base model (one of M_Result, M_WhenAll, ...) that also records the accesses to non-atomic memory and, for
    each point of each thread, the accesses that happen before it.  It applies to code that accesses its atomics by read-modify-write
    operations only: each of them reads the latest value, hence the interleavings of the base model are the executions, provided that there is no
    data race.  A data race is a failure of this model.

    Locations are numbers.  Accesses to one location conflict unless none of them writes; the atomic accesses to an atomic location count as
    reads, its construction and destruction as writes (so do the construction and destruction of every object).  Synchronization objects (atomics and mutexes)
    are numbers as well: to lock a mutex is an acquire operation, to unlock it is a release operation.

    A thread is a slot that holds what happens before its current point.  A thread may also know about an arbitrary set of earlier accesses at any
    step, since it may have synchronized with other threads by other means. *)
From Coq Require Import List Arith Bool.
From Verif Require Import Lts.
Import ListNotations.

(** Accesses that happen before a point, as positions in the log *)
Notation hbs := (list nat).
(** An access to a location and whether it writes *)
Record maccess := MA { ma_loc : nat; ma_wr : bool }.
(** The accesses in the order of the execution, each one with those that happen before it *)
Notation mlog := (list (maccess * hbs)).

(** a happens before v: all accesses that conflict with it are in v *)
Definition m_conflict (a b : maccess) : bool := (ma_loc a =? ma_loc b) && (ma_wr a || ma_wr b).
Definition m_ordered (g : mlog) (v : hbs) (a : maccess) : bool :=
  forallb (fun i => match nth_error g i with Some (b, _) => negb (m_conflict b a) || memb i v | None => true end) (seq 0 (length g)).
Definition m_before (g : mlog) (i : nat) : hbs := match nth_error g i with Some (_, p) => p | None => [] end.
Definition m_closure (g : mlog) (v : hbs) : hbs := let w := filter (fun i => i <? length g) v in w ++ flat_map (m_before g) w.

(** What happens before the current point of a thread; what would happen before it if it executed an acquire fence *)
Record mview := MV { mv_cur : hbs; mv_pend : hbs }.
Definition mv0 : mview := MV [] [].
(** What happens before one of several points, without duplicates *)
Definition mv_join (l : list mview) : mview := MV (nodup Nat.eq_dec (flat_map mv_cur l)) (nodup Nat.eq_dec (flat_map mv_pend l)).
(** The log; what the newest message of each atomic and the last unlock of each mutex release *)
Record mmem := MM { mm_log : mlog; mm_rel : nat -> hbs }.
Definition mm_init : mmem := MM [] (fun _ => []).

Inductive mact :=
| Touch (l : nat) (wr : bool)          (* access to a location *)
| Rmw (x : nat) (acq rel : bool)       (* read-modify-write of the atomic x; it continues the release sequences that it belongs to *)
| Fence.                               (* atomic_thread_fence(acquire) *)
Definition Lock (x : nat) : mact := Rmw x true false.
Definition Unlock (x : nat) : mact := Rmw x false true.

(** None: data race *)
Definition m_exec1 (m : mmem) (v : mview) (a : mact) : option (mmem * mview) :=
  match a with
  | Touch l w =>
      if m_ordered (mm_log m) (mv_cur v) (MA l w)
      then Some (MM (mm_log m ++ [(MA l w, mv_cur v)]) (mm_rel m), MV (length (mm_log m) :: mv_cur v) (mv_pend v)) else None
  | Rmw x acq rel =>
      let v' := MV (if acq then mv_cur v ++ mm_rel m x else mv_cur v) (mv_pend v ++ mm_rel m x) in
      Some (MM (mm_log m) (if rel then upd (mm_rel m) x (mm_rel m x ++ mv_cur v') else mm_rel m), v')
  | Fence => Some (m, MV (mv_cur v ++ mv_pend v) (mv_pend v))
  end.
Fixpoint m_exec (m : mmem) (v : mview) (l : list mact) : option (mmem * mview) :=
  match l with
  | [] => Some (m, v)
  | a :: l' => match m_exec1 m v a with Some (m', v') => m_exec m' v' l' | None => None end
  end.

Section HB.
Context {S L E : Type}.
Variable step : S -> L -> outcome S E.
(** The threads whose views are joined for a step (more than one: a thread that waited for the others); the threads that continue from there; what
    the step does *)
Variable src dst : S -> L -> list nat.
Variable acts : S -> L -> list mact.

(** The state of the base model, the memory, the view of each thread; initially nothing is known; all threads of l get the view v *)
Record mst := MS { ms_base : S; ms_mem : mmem; ms_view : nat -> mview }.
Definition ms_init (s : S) : mst := MS s mm_init (fun _ => mv0).
Definition m_set (f : nat -> mview) (l : list nat) (v : mview) : nat -> mview := fun j => if memb j l then v else f j.

(** v: accesses that the thread also knows about.  Events come with the accesses that happen before the end of the step. *)
Definition m_step (h : mst) (lv : L * hbs) : outcome mst (E * hbs) :=
  let '(l, v) := lv in
  let s := ms_base h in
  match step s l with
  | Disabled => Disabled
  | Fail f es => Fail f (map (fun e => (e, [])) es)
  | Next s' es =>
      let v0 := mv_join (map (ms_view h) (src s l)) in
      match m_exec (ms_mem h) (MV (m_closure (mm_log (ms_mem h)) v ++ mv_cur v0) (mv_pend v0)) (acts s l) with
      | None => Fail DataRace (map (fun e => (e, [])) es)
      | Some (m', v') => Next (MS s' m' (m_set (ms_view h) (dst s l) v')) (map (fun e => (e, mv_cur v')) es)
      end
  end.
End HB.
