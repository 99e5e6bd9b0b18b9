(** Model of async::post_ack_mechanism / post_ack_agent / post_ack_handle (include/async/post-ack.hpp).  Polling is a wait
    primitive of M_Wait; attach, detach, post, ack and dereferencing a handle are its other steps.

    Simplifications: sequence numbers and counters are unbounded; a handle is named after the poll operation that returned
    it, moving and swapping handles (lines 181-186, 195-207) does not change its name; they are modelled in
    M_PostAckMove.v, and so is the destructor; two calls of detach() on the same
    agent do not overlap. *)
From Coq Require Import List Arith Bool.
From Verif Require Import Lts M_Wait.
Import ListNotations.

(** post_ack_handle (lines 240-243) with the progress of its ack() *)
Inductive hpc :=
| HNone            (* no handle, or one without node *)
| HHas (p : nat)   (* refers to post p, not acknowledged *)
| HErase (p : nat) (* ack(): the fetch_sub returned 1, about to lock and unlink the node, lines 216-220 *)
| HComp (p : nat)  (* ack(): about to call complete(), line 221 *)
| HEnd (p : nat).  (* acknowledged *)

Section PostAck.
Variable T : Type.

(** struct node, lines 32-43: node_seq, acks_left, object; [n_done]: its receiver was notified, after which the operation may
    have been destroyed, so that no access is allowed any more *)
Record node := Nd { n_seq : nat; n_acks : nat; n_obj : T; n_done : bool }.
(** post_ack_agent, lines 401-402: mech_ (whether it is set) and poll_seq_; [g_det]: a running detach() with its local
    variable retire_seq and the post whose complete() it is about to call (line 295), if any *)
Record agent := Ag { g_mech : bool; g_seq : nat; g_det : option (nat * option nat) }.

(** post_ack_mechanism, lines 150-172: post_seq_, active_agents_, queue_, the nodes, poll_queue_; for each poll operation
    pending and nd of its poll_node (lines 49-50), its agnt_ (line 373) and the handle it returned; the agents *)
Record kst := KS {
  k_seq : nat; k_active : nat; k_q : list nat; k_nd : nat -> option node;
  k_pq : list nat; k_pend : nat -> bool; k_pnd : nat -> option nat; k_agt : nat -> nat; k_hd : nat -> hpc;
  k_ag : nat -> agent
}.

Inductive klabel :=
| KAttach (a : nat)               (* agent a: attach() *)
| KDetach (a : nat)               (* agent a: detach() begins *)
| KDetStep (a : nat)              (* the next step of the running detach() of agent a *)
| KPost (p : nat) (x : T)         (* start() of the post operation p *)
| KAck (o : nat)                  (* ack() of the handle returned by the poll operation o begins *)
| KAckStep (o : nat)              (* its next step *)
| KRead (o : nat).                (* operator* / operator-> of that handle *)

Inductive kevent :=
| EAttach (a : nat)
| EDetach (a : nat)               (* detach() was called *)
| EDetached (a : nat)             (* detach() returned *)
| EPost (p : nat) (x : T)
| EPostDone (p : nat)             (* set_value on the receiver of the post operation *)
| EAck (o : nat)
| ERead (o : nat) (x : option T).   (* the object found, if any *)

(** post-ack.hpp 152-172: no agents, no posts, no polls *)
Definition k_init : kst :=
  KS 0 0 [] (fun _ => None) [] (fun _ => false) (fun _ => None) (fun _ => 0) (fun _ => HNone) (fun _ => Ag false 0 None).

(** Updates of one field of the state (of the model; no code corresponds to them) *)
Definition with_ag (s : kst) (a : nat) (g : agent) : kst :=
  KS (k_seq s) (k_active s) (k_q s) (k_nd s) (k_pq s) (k_pend s) (k_pnd s) (k_agt s) (k_hd s) (upd (k_ag s) a g).
Definition with_active (s : kst) (n : nat) : kst :=
  KS (k_seq s) n (k_q s) (k_nd s) (k_pq s) (k_pend s) (k_pnd s) (k_agt s) (k_hd s) (k_ag s).
Definition with_nd (s : kst) (p : nat) (nd : node) : kst :=
  KS (k_seq s) (k_active s) (k_q s) (upd (k_nd s) p (Some nd)) (k_pq s) (k_pend s) (k_pnd s) (k_agt s) (k_hd s) (k_ag s).
Definition with_q (s : kst) (q : list nat) : kst :=
  KS (k_seq s) (k_active s) q (k_nd s) (k_pq s) (k_pend s) (k_pnd s) (k_agt s) (k_hd s) (k_ag s).
Definition with_hd (s : kst) (o : nat) (h : hpc) : kst :=
  KS (k_seq s) (k_active s) (k_q s) (k_nd s) (k_pq s) (k_pend s) (k_pnd s) (k_agt s) (upd (k_hd s) o h) (k_ag s).

(** An access to the node of post [p] is allowed only while its operation is known to exist. *)
Definition live (s : kst) (p : nat) : bool := match k_nd s p with Some nd => negb (n_done nd) | None => false end.
(** Linking, unlinking and walking through queue_ access the hooks of its elements. *)
Definition q_live (s : kst) : bool := forallb (live s) (k_q s).
(** The search of lines 281-283 and 332-334 *)
Definition has_seq (s : kst) (i p : nat) : bool := match k_nd s p with Some nd => Nat.eqb (n_seq nd) i | None => false end.
Definition find_seq (s : kst) (i : nat) : option nat := find (has_seq s i) (k_q s).

(** poll_operation::start(), lines 320-351.  The increment of poll_seq_ on the fast path (line 347) is part of the critical
    section here: poll_seq_ is only used by calls on the same agent. *)
Definition k_start (s : kst) (o a : nat) : start_out kst (option nat) kevent :=
  let g := k_ag s a in
  if negb (g_mech g) then SFail AssertFailed     (* line 321 *)
  else if Nat.ltb (g_seq g) (k_seq s) then       (* line 330 *)
    if negb (q_live s) then SFail UseAfterFree
    else match find_seq s (g_seq g) with
         | None => SFail AssertFailed            (* line 336 *)
         | Some p =>
             SFast (KS (k_seq s) (k_active s) (k_q s) (k_nd s) (k_pq s) (upd (k_pend s) o true) (upd (k_pnd s) o (Some p))
                       (upd (k_agt s) o a) (upd (k_hd s) o (HHas p)) (upd (k_ag s) a (Ag (g_mech g) (g_seq g + 1) (g_det g))))
                   (Some p) []
         end
  else                                           (* line 342 *)
    SQueued (KS (k_seq s) (k_active s) (k_q s) (k_nd s) (k_pq s ++ [o]) (upd (k_pend s) o false) (upd (k_pnd s) o None)
                (upd (k_agt s) o a) (k_hd s) (k_ag s)) [].

(** try_cancel(), lines 57-67 *)
Definition k_try (s : kst) (o : nat) : try_out kst :=
  if k_pend s o then TOk s false
  else match k_pnd s o with
       | Some _ => TFail AssertFailed
       | None =>
           if memb o (k_pq s)
           then TOk (KS (k_seq s) (k_active s) (k_q s) (k_nd s) (remove1 o (k_pq s)) (upd (k_pend s) o true) (k_pnd s)
                        (k_agt s) (k_hd s) (k_ag s)) true
           else TFail BadUnlink
       end.

(** resume_fn, lines 360-367 *)
Definition k_resume (s : kst) (o : nat) : resume_out kst (option nat) :=
  match k_pnd s o with
  | None => ROk s None
  | Some p =>
      let a := k_agt s o in let g := k_ag s a in
      ROk (with_hd (with_ag s a (Ag (g_mech g) (g_seq g + 1) (g_det g))) o (HHas p)) (Some p)
  end.

(** The end of detach(): line 307 *)
Definition det_end (s : kst) (a : nat) : kst := with_ag s a (Ag false (g_seq (k_ag s a)) None).
(** after the post with number poll_seq_ was retired: lines 300-302 *)
Definition det_next (s : kst) (a r : nat) (es : list kevent) : prim_out kst kevent :=
  let g := k_ag s a in
  if Nat.eqb r (g_seq g) then POk (det_end s a) [] (es ++ [EDetached a])
  else POk (with_ag s a (Ag (g_mech g) (g_seq g) (Some (r, None)))) [] es.
(** One iteration of the loop of detach(), lines 281-303, up to the call of complete().  The increment of poll_seq_
    (line 300) is part of it (poll_seq_ is only used by calls on the same agent). *)
Definition retire_one (s : kst) (a r : nat) (es : list kevent) : prim_out kst kevent :=
  let g := k_ag s a in
  if negb (q_live s) then PFail UseAfterFree es
  else match find_seq s (g_seq g) with
       | None => PFail AssertFailed es           (* line 285 *)
       | Some p =>
           match k_nd s p with
           | None => PFail UseAfterFree es
           | Some nd =>
               match n_acks nd with
               | 0 => PFail AssertFailed es      (* line 289 *)
               | 1 => (* lines 290-295 *)
                   POk (with_ag (with_q (with_nd s p (Nd (n_seq nd) 0 (n_obj nd) (n_done nd))) (remove1 p (k_q s)))
                                a (Ag (g_mech g) (g_seq g + 1) (Some (r, Some p)))) [] es
               | S n =>
                   det_next (with_ag (with_nd s p (Nd (n_seq nd) n (n_obj nd) (n_done nd))) a
                                     (Ag (g_mech g) (g_seq g + 1) (g_det g))) a r es
               end
           end
       end.

(** complete() of post [p] (line 121-123) *)
Definition post_complete (s : kst) (p : nat) : option kst :=
  match k_nd s p with
  | Some nd => if n_done nd then None else Some (with_nd s p (Nd (n_seq nd) (n_acks nd) (n_obj nd) true))
  | None => None
  end.

Definition k_step (s : kst) (l : klabel) : prim_out kst kevent :=
  match l with
  | KAttach a =>                          (* lines 259-269 *)
      if g_mech (k_ag s a) then PFail AssertFailed [EAttach a]
      else POk (with_active (with_ag s a (Ag true (k_seq s) None)) (k_active s + 1)) [] [EAttach a]
  | KDetach a =>                          (* lines 271-280 and the first iteration *)
      let g := k_ag s a in
      if negb (g_mech g) then PFail AssertFailed [EDetach a]
      else match g_det g with
           | Some _ => PNo
           | None =>
               match k_active s with
               | 0 => PFail CounterUnderflow [EDetach a]
               | S n =>
                   let s1 := with_ag (with_active s n) a (Ag true (g_seq g) (Some (k_seq s, None))) in
                   if Nat.ltb (g_seq g) (k_seq s) then retire_one s1 a (k_seq s) [EDetach a]
                   else POk (det_end s1 a) [] [EDetach a; EDetached a]
               end
           end
  | KDetStep a =>
      match g_det (k_ag s a) with
      | None => PNo
      | Some (r, None) => retire_one s a r []
      | Some (r, Some p) =>               (* line 295 *)
          match post_complete s p with
          | None => PFail UseAfterFree []
          | Some s1 => det_next s1 a r [EPostDone p]
          end
      end
  | KPost p x =>                          (* lines 77-118; the loop of lines 109-112 is part of M_Wait *)
      match k_nd s p with
      | Some _ => PNo                     (* the operation was started before *)
      | None =>
          match k_active s with
          | 0 =>                          (* lines 92-95, 116-117 *)
              match k_pq s with
              | [] => POk (KS (k_seq s + 1) 0 (k_q s) (upd (k_nd s) p (Some (Nd (k_seq s) 0 x true))) (k_pq s) (k_pend s)
                              (k_pnd s) (k_agt s) (k_hd s) (k_ag s)) [] [EPost p x; EPostDone p]
              | _ => PFail AssertFailed [EPost p x]
              end
          | S _ =>                        (* lines 97-106 *)
              if negb (q_live s) then PFail UseAfterFree [EPost p x]
              else if existsb (fun o => k_pend s o || match k_pnd s o with Some _ => true | None => false end) (k_pq s)
              then PFail AssertFailed [EPost p x]  (* lines 101-102 *)
              else POk (KS (k_seq s + 1) (k_active s) (k_q s ++ [p]) (upd (k_nd s) p (Some (Nd (k_seq s) (k_active s) x false)))
                           [] (fun o => if memb o (k_pq s) then true else k_pend s o)
                           (fun o => if memb o (k_pq s) then Some p else k_pnd s o) (k_agt s) (k_hd s) (k_ag s))
                       (k_pq s) [EPost p x]
          end
      end
  | KAck o =>                             (* lines 209-215, 223 *)
      match k_hd s o with
      | HHas p =>
          match k_nd s p with
          | None => PFail UseAfterFree [EAck o]
          | Some nd =>
              if n_done nd then PFail UseAfterFree [EAck o] else
              match n_acks nd with
              | 0 => PFail AssertFailed [EAck o]   (* line 214 *)
              | S n => POk (with_hd (with_nd s p (Nd (n_seq nd) n (n_obj nd) (n_done nd))) o
                                    (match n with 0 => HErase p | S _ => HEnd p end)) [] [EAck o]
              end
          end
      | _ => PFail AssertFailed [EAck o]           (* lines 210-211 *)
      end
  | KAckStep o =>
      match k_hd s o with
      | HErase p =>                       (* lines 216-220 *)
          if negb (q_live s) then PFail UseAfterFree []
          else if memb p (k_q s) then POk (with_hd (with_q s (remove1 p (k_q s))) o (HComp p)) [] []
          else PFail BadUnlink []
      | HComp p =>                        (* line 221 *)
          match post_complete s p with
          | None => PFail UseAfterFree []
          | Some s1 => POk (with_hd s1 o (HEnd p)) [] [EPostDone p]
          end
      | _ => PNo
      end
  | KRead o =>                            (* lines 230-238 *)
      match k_hd s o with
      | HNone => PFail AssertFailed [ERead o None]
      | HHas p | HErase p | HComp p | HEnd p =>
          match k_nd s p with
          | Some nd => if n_done nd then PFail UseAfterFree [ERead o None] else POk s [] [ERead o (Some (n_obj nd))]
          | None => PFail UseAfterFree [ERead o None]
          end
      end
  end.

(** poll_operation as a user of cancellation_resolver, see M_Wait.v *)
Definition post_ack : prim :=
  Prim kst nat (option nat) klabel kevent k_init k_start k_try k_resume (fun _ v => v) k_step.

End PostAck.
Arguments Nd {T}. Arguments n_seq {T}. Arguments n_acks {T}. Arguments n_obj {T}. Arguments n_done {T}.
Arguments KS {T}. Arguments k_seq {T}. Arguments k_active {T}. Arguments k_q {T}. Arguments k_nd {T}. Arguments k_pq {T}.
Arguments k_pend {T}. Arguments k_pnd {T}. Arguments k_agt {T}. Arguments k_hd {T}. Arguments k_ag {T}.
Arguments KAttach {T}. Arguments KDetach {T}. Arguments KDetStep {T}. Arguments KPost {T}. Arguments KAck {T}. Arguments KAckStep {T}. Arguments KRead {T}.
Arguments EAttach {T}. Arguments EDetach {T}. Arguments EDetached {T}. Arguments EPost {T}. Arguments EPostDone {T}. Arguments EAck {T}. Arguments ERead {T}.
Arguments with_ag {T}. Arguments with_active {T}. Arguments with_nd {T}. Arguments with_q {T}. Arguments with_hd {T}.
Arguments live {T}. Arguments q_live {T}. Arguments has_seq {T}. Arguments find_seq {T}. Arguments det_end {T}. Arguments det_next {T}.
Arguments retire_one {T}. Arguments post_complete {T}. Arguments k_start {T}. Arguments k_try {T}. Arguments k_resume {T}. Arguments k_step {T}.
