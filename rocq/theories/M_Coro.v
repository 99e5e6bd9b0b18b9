(** Model of co_await: sender_awaiter (include/async/basic.hpp 119-186) together with the coroutines that use it, result<T>
    (include/async/result.hpp) and detached (basic.hpp 467-489).

    A program is what the body of a coroutine does, as far as the library sees it.  The whole program is the body of a coroutine of type detached;
    it calls coroutines of type result, which call others, and awaits operations of other kinds (leaves).  A leaf is arbitrary: it completes
    at most once, with any value, inside of its start() or at any later time in any other call stack (i.e. on another thread or from an event loop).

    Every thread has a call stack, whose height is part of the model.  Coroutine frames, awaiters and operations have lifetimes: using one that does not
    exist is a failure.
    Simplifications: sequentially consistent memory; temporaries of a co_await expression are destroyed right after await_resume();
    the specializations for void (basic.hpp 155-186, result.hpp 175-281, 317-350) have the same control flow with the unit value. *)
From Coq Require Import List Arith Bool.
From Verif Require Import Lts M_Result.
Import ListNotations.

(** What a coroutine does next: return a value; await a leaf and continue with its value; call a coroutine, await it and continue with
    its value; call a coroutine and discard the result object without awaiting it.  Bodies may loop forever. *)
CoInductive prog :=
| Ret (v : nat)
| Leaf (l : nat) (k : nat -> prog)
| Call (p : prog) (k : nat -> prog)
| Drop (p : prog) (k : prog).

(** A coroutine: created, suspended at its initial suspension; running; suspended in a co_await; return_value() was called;
    suspended at its final suspension; destroyed *)
Inductive cstat := CInit (p : prog) | CRun | CSusp (k : nat -> prog) | CRet | CEnd | CDead.
(** The awaiter in the frame of a coroutine, with its operation_: none; for a leaf (and whether that completed); for a coroutine *)
Inductive awk := ANone | ALeaf (done : bool) | ACall (n : nat).
Record coro := CO {
  c_st : cstat;
  c_par : option nat;      (* the coroutine whose awaiter has the result_operation of this one; None: this one is detached *)
  c_cont : bool;           (* promise_type::cont_ is set (result.hpp 143) *)
  c_cfp : cfp;             (* promise_type::cfp_ (144) *)
  c_val : option nat;      (* result_continuation::obj_ of its operation (36) *)
  c_aw : awk;
  c_res : option nat       (* sender_awaiter::result_ (basic.hpp 151) of the awaiter *)
}.

(** Activation records.  The innermost one executes. *)
Inductive frame :=
| KBody (c : nat) (p : prog)     (* the body of coroutine c; p is what it does next *)
| KLeaf (c : nat)                (* start() of the leaf that c awaits *)
| KGo (n : nat)                  (* result_operation::start() of n, at its beginning (result.hpp 292) *)
| KInit (n : nat)                (* h.resume() for the first time (296) *)
| KStart (n : nat)               (* result_operation::start() of n, in h.resume() or, if innermost, before the exchange (297) *)
| KRet (n : nat)                 (* final_suspend of n, before the exchange (122) *)
| KNote (n : nat)                (* before set_value() of the receiver of n (301, 307) *)
| KRecv (c v : nat)              (* sender_awaiter::receiver::set_value (basic.hpp 123) *)
| KWake (c : nat)                (* the same, before h_.resume() (125) *)
| KEnd (c : nat) (p : prog)      (* c, before it destroys the awaiter; then it does p *)
| KDone.                         (* a function that only returns *)

Record kst := KS { k_cs : list coro; k_ths : list (list frame) }.
(** The coroutine of type detached starts to run when it is called (basic.hpp 473-475). *)
Definition k_init (p : prog) : kst := KS [CO CRun None false PastStart None ANone None] [[KBody 0 p]].

Inductive klabel := LStep (t : nat)                           (* thread t executes *)
                  | LComp (c : nat) (o : option nat) (v : nat).  (* the leaf that c awaits completes with v: in start() on thread o, or elsewhere *)
Inductive kevent := EStart (l : nat) | EComp (v : nat)        (* a leaf is started; completes *)
                  | EAlloc (n : nat) | EFree (n : nat)        (* a coroutine frame is created; destroyed *)
                  | EDone (v : nat).                          (* the program is done *)

(** Updates of one field of a coroutine frame (the assignments themselves are cited in k_exec) *)
Definition set_st (x : coro) (st : cstat) := CO st (c_par x) (c_cont x) (c_cfp x) (c_val x) (c_aw x) (c_res x).
Definition set_cont (x : coro) := CO (c_st x) (c_par x) true (c_cfp x) (c_val x) (c_aw x) (c_res x).
Definition set_cfp (x : coro) (f : cfp) := CO (c_st x) (c_par x) (c_cont x) f (c_val x) (c_aw x) (c_res x).
Definition set_val (x : coro) (v : nat) := CO (c_st x) (c_par x) (c_cont x) (c_cfp x) (Some v) (c_aw x) (c_res x).
Definition set_aw (x : coro) (a : awk) (r : option nat) := CO (c_st x) (c_par x) (c_cont x) (c_cfp x) (c_val x) a r.

Definition is_dead (x : coro) : bool := match c_st x with CDead => true | _ => false end.
(** The frame of coroutine c, if it exists *)
Definition get (cs : list coro) (c : nat) : option coro :=
  match nth_error cs c with Some x => if is_dead x then None else Some x | None => None end.
(** The coroutine whose awaiter has the operation of n, if that operation exists *)
Definition owner (cs : list coro) (x : coro) (n : nat) : option nat :=
  match c_par x with
  | Some q => match get cs q with
              | Some y => match c_aw y with ACall m => if m =? n then Some q else None | _ => None end
              | None => None
              end
  | None => None
  end.
(** ~sender_awaiter: the operation is destroyed, with a coroutine frame (result.hpp 160-163).  A leaf that has not completed and a coroutine
    that is not suspended must not be destroyed. *)
Definition drop_aw (cs : list coro) (a : awk) : option (list coro * list kevent) :=
  match a with
  | ALeaf true => Some (cs, [])
  | ACall n => match get cs n with
               | Some y => match c_st y with CEnd => Some (set_nth cs n (set_st y CDead), [EFree n]) | _ => None end
               | None => None
               end
  | _ => None
  end.

(** The innermost function [f] of thread t, in the callers [st] *)
Definition k_exec (s : kst) (t : nat) (f : frame) (st : list frame) : outcome kst kevent :=
  let 'KS cs ths := s in
  let next cs' st' es := Next (KS cs' (set_nth ths t st')) es in
  match f with
  | KDone => next cs st []
  | KLeaf _ => next cs (KDone :: st) []
  | KBody c p =>
      match get cs c with
      | None => Fail UseAfterFree []
      | Some x =>
          match p with
          | Ret v =>
              match c_par x with
              | None =>                                     (* detached: final_suspend never suspends, the frame is destroyed (basic.hpp 477-483) *)
                  next (set_nth cs c (set_st x CDead)) (KDone :: st) [EDone v; EFree c]
              | Some _ =>                                   (* return_value (result.hpp 81-88) *)
                  if c_cont x then
                    match owner cs x c with
                    | Some _ => next (set_nth cs c (set_st (set_val x v) CRet)) (KRet c :: st) []
                    | None => Fail UseAfterFree []
                    end
                  else Fail NullDeref []
              end
          | Leaf l k =>                                     (* sender_awaiter, await_suspend (basic.hpp 132-142) *)
              next (set_nth cs c (set_st (set_aw x (ALeaf false) None) (CSusp k))) (KLeaf c :: KDone :: st) [EStart l]
          | Call p k =>                                     (* get_return_object (result.hpp 73-75), connect (350-358), await_suspend (basic.hpp 140-142) *)
              next (set_nth cs c (set_st (set_aw x (ACall (length cs)) None) (CSusp k)) ++ [CO (CInit p) (Some c) false Indet None ANone None])
                   (KGo (length cs) :: KDone :: st) [EAlloc (length cs)]
          | Drop p k =>                                     (* ~result of a coroutine at its initial suspension (result.hpp 160-163) *)
              next (cs ++ [CO CDead None false Indet None ANone None]) (KBody c k :: st) [EAlloc (length cs); EFree (length cs)]
          end
      end
  | KGo n =>                                                (* result.hpp 293-296 *)
      match get cs n with
      | None => Fail UseAfterFree []
      | Some x => match owner cs x n with
                  | Some _ => next (set_nth cs n (set_cont x)) (KInit n :: KStart n :: st) []
                  | None => Fail UseAfterFree []
                  end
      end
  | KInit n =>                                              (* initial_suspend (90-111) *)
      match get cs n with
      | None => Fail UseAfterFree []
      | Some x => match c_st x with
                  | CInit p => if c_cont x then next (set_nth cs n (set_st x CRun)) (KBody n p :: st) [] else Fail AssertFailed []
                  | _ => Fail ResumeFinished []
                  end
      end
  | KStart n =>                                             (* 297-298 *)
      match get cs n with
      | None => Fail UseAfterFree []
      | Some x => next (set_nth cs n (set_cfp x PastStart)) (match c_cfp x with PastSuspend => KNote n :: st | _ => KDone :: st end) []
      end
  | KRet n =>                                               (* 122-130 *)
      match get cs n with
      | None => Fail UseAfterFree []
      | Some x => next (set_nth cs n (set_st (set_cfp x PastSuspend) CEnd))
                       (match c_cfp x with PastStart => KNote n :: KDone :: st | _ => KDone :: st end) []
      end
  | KNote n =>                                              (* 301, 307 *)
      match get cs n with
      | None => Fail UseAfterFree []
      | Some x => match owner cs x n with
                  | Some q => match c_val x with Some v => next cs (KRecv q v :: KDone :: st) [] | None => Fail NullDeref [] end
                  | None => Fail UseAfterFree []
                  end
      end
  | KRecv c v =>                                            (* basic.hpp 124 *)
      match get cs c with
      | None => Fail UseAfterFree []
      | Some x => match c_aw x with
                  | ANone => Fail UseAfterFree []
                  | a => next (set_nth cs c (set_aw x a (Some v))) (KWake c :: st) []
                  end
      end
  | KWake c =>                                              (* 125, await_resume 145-147 *)
      match get cs c with
      | None => Fail UseAfterFree []
      | Some x => match c_st x, c_aw x, c_res x with
                  | _, ANone, _ => Fail UseAfterFree []
                  | CSusp k, _, Some v => next (set_nth cs c (set_st x CRun)) (KEnd c (k v) :: KDone :: st) []
                  | CSusp _, _, None => Fail NullDeref []
                  | _, _, _ => Fail ResumeFinished []
                  end
      end
  | KEnd c p =>
      match get cs c with
      | None => Fail UseAfterFree []
      | Some x => match drop_aw (set_nth cs c (set_aw x ANone None)) (c_aw x) with
                  | Some (cs', es) => next cs' (KBody c p :: st) es
                  | None => Fail UseAfterFree []
                  end
      end
  end.

(** One step: thread t executes the top of its stack, or a leaf completes *)
Definition k_step (s : kst) (l : klabel) : outcome kst kevent :=
  match l with
  | LStep t => match nth_error (k_ths s) t with Some (f :: st) => k_exec s t f st | _ => Disabled end
  | LComp c o v =>
      match nth_error (k_cs s) c with
      | Some x =>
          match c_aw x with
          | ALeaf false => if is_dead x then Fail UseAfterFree [] else
              let cs := set_nth (k_cs s) c (set_aw x (ALeaf true) (c_res x)) in
              match o with
              | None => Next (KS cs (k_ths s ++ [[KRecv c v]])) [EComp v]
              | Some t => match nth_error (k_ths s) t with
                          | Some (KLeaf c' :: st) => if c' =? c then Next (KS cs (set_nth (k_ths s) t (KRecv c v :: KDone :: st))) [EComp v] else Disabled
                          | _ => Disabled
                          end
              end
          | _ => Disabled
          end
      | None => Disabled
      end
  end.
