(** Model of async::queue (include/async/queue.hpp) as a wait primitive of M_Wait. *)
From Coq Require Import List Arith Bool.
From Verif Require Import Lts M_Wait.
Import ListNotations.

Section Queue.
Variable T : Type.

(** queue.hpp 158-169: buffer_, sinks_; and the member [value] of each sink (line 26), indexed by operation. *)
Record qst := Q { q_buf : list T; q_sinks : list nat; q_val : nat -> option T }.

Inductive qlabel :=
| QPut (x : T)      (* put() / emplace() *)
| QMaybeGet.        (* maybe_get() *)

Inductive qevent :=
| EPut (x : T)                    (* put(x) took effect *)
| EMaybeGet (r : option T).       (* maybe_get() returned r *)

(** queue.hpp 17-19 *)
Definition q_init : qst := Q [] [] (fun _ => None).

(** get_operation::start(), critical section, queue.hpp 80-91.  [value] of a new operation is empty (line 26). *)
Definition q_start (s : qst) (o : nat) (_ : unit) : start_out qst (option T) qevent :=
  match q_buf s with
  | x :: rest =>
      match q_sinks s with
      | [] => SFast (Q rest [] (upd (q_val s) o (Some x))) (Some x) []
      | _ :: _ => SFail AssertFailed (* assert(q_->sinks_.empty()), line 84 *)
      end
  | [] => SQueued (Q [] (q_sinks s ++ [o]) (upd (q_val s) o None)) []
  end.

(** try_cancel(), queue.hpp 33-42 *)
Definition q_try (s : qst) (o : nat) : try_out qst :=
  match q_val s o with
  | None => if memb o (q_sinks s) then TOk (Q (q_buf s) (remove1 o (q_sinks s)) (q_val s)) true else TFail BadUnlink
  | Some _ => TOk s false
  end.

(** resume_fn, queue.hpp 107-112.  (Moving out of [value] is not modelled: [value] is not read again.) *)
Definition q_resume (s : qst) (o : nat) : resume_out qst (option T) := ROk s (q_val s o).

(** emplace(), critical section, queue.hpp 50-63 (the waker loop of lines 65-66 is part of M_Wait);
    maybe_get(), queue.hpp 148-156. *)
Definition q_step (s : qst) (l : qlabel) : prim_out qst qevent :=
  match l with
  | QPut x =>
      match q_sinks s with
      | o :: rest =>
          match q_buf s with
          | [] => POk (Q [] rest (upd (q_val s) o (Some x))) [o] [EPut x]
          | _ :: _ => PFail AssertFailed [EPut x] (* assert(buffer_.empty()), line 55 *)
          end
      | [] => POk (Q (q_buf s ++ [x]) [] (q_val s)) [] [EPut x]
      end
  | QMaybeGet =>
      match q_buf s with
      | [] => POk s [] [EMaybeGet None]
      | x :: rest => POk (Q rest (q_sinks s) (q_val s)) [] [EMaybeGet (Some x)]
      end
  end.

(** queue.hpp 12-169 as an instance of the generic wait machine *)
Definition queue_prim : prim :=
  Prim qst unit (option T) qlabel qevent q_init q_start q_try q_resume (fun _ v => v) q_step.

End Queue.

Arguments Q {T}. Arguments q_buf {T}. Arguments q_sinks {T}. Arguments q_val {T}.
Arguments QPut {T}. Arguments QMaybeGet {T}. Arguments EPut {T}. Arguments EMaybeGet {T}.
