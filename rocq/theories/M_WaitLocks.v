(** Which steps of the primitives lock the mutex of the primitive, for M_WaitHB. *)
From Coq Require Import List Arith Bool.
From Verif Require Import Lts M_Wait M_WaitHB M_Queue M_Recurring M_Future M_PostAck.
Import ListNotations.

(** emplace() (queue.hpp 48-63) and maybe_get() (queue.hpp 148-156) *)
Definition queue_lk (T : Type) (s : PS (queue_prim T)) (l : PL (queue_prim T)) : bool := true.

(** raise() (recurring-event.hpp 54-63); the steps of the code around the event do not lock the mutex of the event *)
Definition recurring_lk (U : ruser) (s : PS (recurring_prim U)) (l : PL (recurring_prim U)) : bool :=
  match (l : rlabel U) with RRaise => true | RUserStep _ => false end.

(** promise::set_value() (promise.hpp 369-372, 94-98) *)
Definition future_lk (T : Type) (s : PS (future_prim T)) (l : PL (future_prim T)) : bool := true.

(** attach() and detach() (post-ack.hpp 263-268, 274-303), start() of a post (post-ack.hpp 88-107), ack() (post-ack.hpp 217-219) *)
Definition post_ack_lk (T : Type) (s : PS (post_ack T)) (l : PL (post_ack T)) : bool :=
  let s : kst T := s in
  match (l : klabel T) with
  | KAttach _ | KDetach _ | KPost _ _ => true
  | KDetStep a => match g_det (k_ag s a) with Some (_, None) => true | _ => false end
  | KAckStep o => match k_hd s o with HErase _ => true | _ => false end
  | KAck _ | KRead _ => false
  end.
