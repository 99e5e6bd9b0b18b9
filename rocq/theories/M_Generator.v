(** Model of generator<T> (include/async/generator.hpp).

    The body of the generator is arbitrary: it yields values, awaits other operations and is resumed by other threads any number of times, and returns.
    The consumer creates, starts and destroys next() operations and may do so inside of set_value().
    Simplifications: a next() operation is created by the step that starts it; generators are not moved (62-70; see M_GeneratorMove.v);
    exceptions are not modelled (55-57); while await_suspend() of one co_yield runs, no other co_yield starts (the rules of the specification exclude this,
    because the coroutine is resumed only after the consumer was notified, which is the last thing that await_suspend() does). *)
From Coq Require Import List Arith Bool.
From Verif Require Import Lts.
Import ListNotations.

(** The coroutine: at its initial suspension or at a co_yield; running; awaiting another operation; at its final suspension *)
Inductive gco := GSusp | GRun | GInner | GFinal.
(** yield_awaiter::await_suspend: not running; before it takes cont; before cont->complete() *)
Inductive gpc := YNone | YTake | YComp (n : nat).
Record gst := GS { g_co : gco; g_pc : gpc; g_cont : option nat; g_cur : option nat; (* the fields of promise_type, 19-20 *)
                   g_ops : list nat; (* the live next() operations *) g_alive : bool }.
Definition g_init : gst := GS GSusp YNone None None [] true.

Inductive glabel :=
| GLNext (n : nat)                       (* the consumer starts the next() operation n *)
| GLYield (v : nat) | GLReturn           (* the body yields v; returns *)
| GLAwait | GLWake                       (* the body awaits another operation; is resumed *)
| GLTake | GLComp                        (* the steps of await_suspend *)
| GLFree (n : nat) | GLDestroy.          (* the consumer destroys the operation n; the generator *)
Inductive gevent := GENext (n : nat) | GEYield (v : nat) | GEReturn | GEAwait | GEWake | GEDone (n : nat) (v : option nat) | GEFree (n : nat) | GEDestroy.

(** An access to the frame of the generator: it has to exist *)
Definition g_use (s : gst) (o : outcome gst gevent) : outcome gst gevent := if g_alive s then o else Fail UseAfterFree [].
Definition g_step (s : gst) (l : glabel) : outcome gst gevent :=
  let 'GS c p ct cu ops al := s in
  match l with
  | GLNext n =>                                                        (* lines 82-85 *)
      if memb n ops then Disabled                                      (* n names a new object *)
      else if al then
        match c with
        | GSusp => Next (GS GRun p (Some n) cu (n :: ops) al) [GENext n]
        | _ => Fail ResumeFinished [GENext n]                          (* resume() of a coroutine that is not suspended at a co_yield *)
        end
      else Fail UseAfterFree [GENext n]
  | GLYield v =>                                                       (* lines 44-47 *)
      match c, p with GRun, YNone => g_use s (Next (GS GSusp YTake ct (Some v) ops al) [GEYield v]) | _, _ => Disabled end
  | GLReturn =>                                                        (* lines 49-53 *)
      match c, p with GRun, YNone => g_use s (Next (GS GFinal YTake ct cu ops al) [GEReturn]) | _, _ => Disabled end
  | GLAwait => match c with GRun => g_use s (Next (GS GInner p ct cu ops al) [GEAwait]) | _ => Disabled end
  | GLWake => match c with GInner => g_use s (Next (GS GRun p ct cu ops al) [GEWake]) | _ => Disabled end
  | GLTake =>                                                          (* lines 32-34, 38 *)
      match p with
      | YTake => g_use s (match ct with
                          | Some n => Next (GS c (YComp n) None cu ops al) []
                          | None => Fail Panicked []
                          end)
      | _ => Disabled
      end
  | GLComp =>                                                          (* lines 35, 87-91 *)
      match p with
      | YComp n => g_use s (if memb n ops then Next (GS c YNone ct None ops al) [GEDone n cu] else Fail UseAfterFree [])
      | _ => Disabled
      end
  | GLFree n => if memb n ops then Next (GS c p ct cu (remove1 n ops) al) [GEFree n] else Disabled
  | GLDestroy => if al then Next (GS c p ct cu ops false) [GEDestroy] else Disabled          (* lines 72-75 *)
  end.
