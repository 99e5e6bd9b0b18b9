(** Model of result<T> (include/async/result.hpp): an operation that runs a coroutine.

    The body of the coroutine is arbitrary: it suspends and is resumed by other threads any number of times and returns a value.  A thread that
    resumes the coroutine while the thread that suspended it is still in await_suspend() is covered, because suspension and the return of
    resume() are different steps.  The specializations for void (175-281, 317-350) have the same control flow; there, the value stands for the unit value.
    Simplifications: sequentially consistent memory (the exchanges use memory_order_release and memory_order_relaxed with a fence, lines 123-124, 297-300);
    the operation and the coroutine frame are destroyed together, because s_ is a member of the operation (line 313) and ~result destroys the
    frame (lines 160-163). *)
From Coq Require Import List Arith Bool.
From Verif Require Import Lts.
Import ListNotations.

(** coroutine_cfp, lines 53-57 *)
Inductive cfp := Indet | PastStart | PastSuspend.
(** The coroutine: at its initial suspension; running; suspended; return_value() was called; suspended at its final suspension.
    The flag tells that it runs inside of start(). *)
Inductive co := CInit | CRun (st : bool) | CSusp | CFin (st : bool) | CEnd.
(** The thread that calls start(): not called; in h.resume(); before the exchange; before set_value(); returned *)
Inductive spc := PInit | PIn | PBack | PNote | PRet.
Record rst := RS { r_co : co; r_pc : spc; r_note : bool; (* another thread is about to call cont_->resume() *)
                   r_cont : bool; (* cont_ is set *) r_cfp : cfp; r_val : option nat; r_alive : bool }.
Definition r_init : rst := RS CInit PInit false false Indet None true.

Inductive rlabel :=
| RLStart                              (* start(): until h.resume() *)
| RLSuspend | RLResume | RLReturn (v : nat)   (* the coroutine suspends; is resumed; returns v *)
| RLFinal                              (* final_suspend: the exchange *)
| RLExch                               (* start(): the exchange *)
| RLNotify | RLNotifyInline            (* set_value() by the thread that finished the coroutine; by start() *)
| RLDestroy.
Inductive revent := REStart | REResume | RESuspend | REReturn (v : nat) | REDone (v : nat) | REDestroy.

(** An access to the operation: it has to exist *)
Definition use (s : rst) (o : outcome rst revent) : outcome rst revent := if r_alive s then o else Fail UseAfterFree [].
Definition r_step (s : rst) (l : rlabel) : outcome rst revent :=
  let 'RS c p nt ct cf v al := s in
  match l with
  | RLStart =>                                                      (* lines 292-296; initial_suspend 90-111 *)
      match p, c with
      | PInit, CInit => if al then Next (RS (CRun true) PIn nt true cf v al) [REStart] else Fail UseAfterFree [REStart]
      | _, _ => Disabled
      end
  | RLSuspend => match c with CRun st => use s (Next (RS CSusp (if st then PBack else p) nt ct cf v al) [RESuspend]) | _ => Disabled end
  | RLResume => match c with CSusp => use s (Next (RS (CRun false) p nt ct cf v al) [REResume]) | _ => Disabled end
  | RLReturn x =>                                                   (* lines 81-88 *)
      match c with
      | CRun st => use s (if ct then Next (RS (CFin st) p nt ct cf (Some x) al) [REReturn x] else Fail NullDeref [])
      | _ => Disabled
      end
  | RLFinal =>                                                      (* lines 122-130 *)
      match c with
      | CFin st => use s (Next (RS CEnd (if st then PBack else p) (match cf with PastStart => true | _ => nt end) ct PastSuspend v al) [])
      | _ => Disabled
      end
  | RLNotify =>                                                     (* lines 128, 306-308 *)
      if nt then use s (match v with Some x => Next (RS c p false ct cf v al) [REDone x] | None => Fail NullDeref [] end) else Disabled
  | RLExch =>                                                       (* line 297 *)
      match p with
      | PBack => use s (Next (RS c (match cf with PastSuspend => PNote | _ => PRet end) nt ct PastStart v al) [])
      | _ => Disabled
      end
  | RLNotifyInline =>                                               (* lines 298-302 *)
      match p with
      | PNote => use s (match v with Some x => Next (RS c PRet nt ct cf v al) [REDone x] | None => Fail NullDeref [] end)
      | _ => Disabled
      end
  | RLDestroy => if al then Next (RS c p nt ct cf v false) [REDestroy] else Disabled      (* lines 160-163 *)
  end.
