(** The nodes of post_ack_mechanism and their counters acks_left under the C++ memory model, see M_HB.v (include/async/post-ack.hpp).

    M_PostAck.v with M_Wait.v is the model on sequentially consistent memory; here only the handles, agents and posts appear.  A post is named after its node_seq.  The counter is stored
    once, before the node is linked in a list (line 97, relaxed); this counts as part of its construction, a write that must happen before all other accesses, so that M_HB applies.

    Locations: the members of the mechanism; the members of an agent; of each node the object, hook with node_seq, acks_left, and the receiver.

    Simplifications: the memory of the poll operations and their resolvers are the subject of C54 and C55; here the notification of a poll happens after the critical section of the post
    that took it over, and after that of try_cancel(), if it was called.  An access to queue_ is assumed to write the hooks of all its nodes.  The writes of poll_seq_ and mech_ come
    before the critical section of their call (no other thread may access an agent).  An agent that attaches again counts as a new one.  Moving and swapping handles (lines 181-207) does not change
    their names.

    Rules of the client, built into the labels: the calls on one agent are ordered, poll() and detach() are called on attached agents without a poll in progress; a handle is read and
    acknowledged by one thread at a time and not after ack(); a post operation is destroyed (or its object modified) after its receiver was notified. *)
From Coq Require Import List Arith Bool.
From Verif Require Import Lts M_HB.
Import ListNotations.

(** A node (lines 32-43): acks_left; linked in queue_; the fast path of start() is about to notify the receiver; the receiver was notified; destroyed *)
Record nd := Nd { n_acks : nat; n_q : bool; n_fast : bool; n_done : bool; n_dead : bool }.
(** An agent (lines 401-402): attached; poll_seq_; a poll is in progress; a running detach() with its retire_seq and the node whose complete() it is about to call *)
Record ag := Ag { g_on : bool; g_seq : nat; g_poll : bool; g_det : option (nat * option nat) }.
(** A poll and the handle that it returns: in poll_queue_; taken over by post p; try_cancel() succeeded; no node; not acknowledged; ack(): about to unlink the node; about to call
    complete(); acknowledged *)
Inductive pat := PQueued | PTaken (p : nat) | PCanc | PNone | PHas (p : nat) | PErase (p : nat) | PComp (p : nat) | PAcked (p : nat).
(** its agent; whether try_cancel() was called *)
Record po := Po { o_ag : nat; o_at : pat; o_try : bool }.
(** active_agents_; the nodes, post_seq_ is their number; the agents; the polls *)
Record kst := KS { k_act : nat; k_nd : list nd; k_ag : list ag; k_po : list po }.
Definition k_start : kst := KS 0 [] [] [].

Inductive klabel :=
| LAttach | LDetach (a : nat) | LDet (a : nat)   (* attach(); detach() begins; its next step *)
| LPost | LFast (p : nat)                        (* critical section of start() of a post; the notification at its end *)
| LPoll (a : nat) | LTry (o : nat) | LNotify (o : nat)  (* start() of a poll; try_cancel(); resume_fn *)
| LAck (o : nat) | LAckStep (o : nat)            (* ack() up to the fetch_sub(); its next step *)
| LRead (o : nat)                                (* operator* of the handle *)
| LDestroy (p : nat).

Inductive kevent :=
| EPost (p : nat) | EGot (o p : nat) | ERead (o p : nat) | EAck (o p : nat)
| ERetire (a p : nat)                            (* detach() of a gave up p *)
| EPostDone (p : nat) | EDestroy (p : nat).

(** Updates of one field of the state (of the model; no code corresponds to them); a post takes over a queued poll, lines 99-106; is the poll queued? *)
Definition with_nd (s : kst) (p : nat) (n : nd) : kst := KS (k_act s) (set_nth (k_nd s) p n) (k_ag s) (k_po s).
Definition with_ag (s : kst) (a : nat) (g : ag) : kst := KS (k_act s) (k_nd s) (set_nth (k_ag s) a g) (k_po s).
Definition with_po (s : kst) (o : nat) (r : po) : kst := KS (k_act s) (k_nd s) (k_ag s) (set_nth (k_po s) o r).
Definition take (p : nat) (r : po) : po := match o_at r with PQueued => Po (o_ag r) (PTaken p) (o_try r) | _ => r end.
Definition queued (r : po) : bool := match o_at r with PQueued => true | _ => false end.

(** Access to queue_ *)
Definition walk (s : kst) (k : outcome kst kevent) : outcome kst kevent := if existsb (fun n => n_q n && n_dead n) (k_nd s) then Fail UseAfterFree [] else k.
(** Access to a node *)
Definition node (s : kst) (p : nat) (k : nd -> outcome kst kevent) : outcome kst kevent :=
  match nth_error (k_nd s) p with Some n => if n_dead n then Fail UseAfterFree [] else k n | None => Disabled end.
(** complete() (lines 121-123) *)
Definition complete (s : kst) (p : nat) (k : kst -> outcome kst kevent) : outcome kst kevent :=
  node s p (fun n => if n_done n then Fail UseAfterFree [] else k (with_nd s p (Nd (n_acks n) (n_q n) false true false))).

(** lines 298-307 *)
Definition det_next (q r : nat) : ag := Ag false q false (if r =? q then None else Some (r, None)).
(** One iteration of the loop of detach(), lines 280-296 *)
Definition retire (s : kst) (a q r : nat) : outcome kst kevent :=
  walk s
  match nth_error (k_nd s) q with
  | None => Fail AssertFailed []
  | Some n =>
      if negb (n_q n) then Fail AssertFailed []                                                             (* line 285 *)
      else match n_acks n with
           | 0 => Fail AssertFailed []                                                                      (* line 289 *)
           | 1 => Next (with_ag (with_nd s q (Nd 0 false (n_fast n) (n_done n) (n_dead n))) a (Ag false (q + 1) false (Some (r, Some q)))) [ERetire a q]
           | S m => Next (with_ag (with_nd s q (Nd m true (n_fast n) (n_done n) (n_dead n))) a (det_next (q + 1) r)) [ERetire a q]
           end
  end.

Definition k_step (s : kst) (l : klabel) : outcome kst kevent :=
  match l with
  | LAttach => Next (KS (S (k_act s)) (k_nd s) (k_ag s ++ [Ag true (length (k_nd s)) false None]) (k_po s)) []  (* lines 259-269 *)
  | LDetach a =>                                                                                            (* lines 271-279 and the first iteration *)
      match nth_error (k_ag s) a with
      | Some g =>
          if g_on g && negb (g_poll g) then
            match k_act s with
            | 0 => Fail CounterUnderflow []
            | S c =>
                let s1 := KS c (k_nd s) (k_ag s) (k_po s) in
                if g_seq g <? length (k_nd s) then retire s1 a (g_seq g) (length (k_nd s)) else Next (with_ag s1 a (Ag false (g_seq g) false None)) []
            end
          else Disabled
      | None => Disabled
      end
  | LDet a =>
      match nth_error (k_ag s) a with
      | Some g =>
          match g_det g with
          | None => Disabled
          | Some (r, None) => retire s a (g_seq g) r
          | Some (r, Some p) => complete s p (fun s1 => Next (with_ag s1 a (det_next (g_seq g) r)) [EPostDone p])  (* line 295 *)
          end
      | None => Disabled
      end
  | LPost =>                                                                                                (* lines 72-75, 88-107 *)
      let p := length (k_nd s) in
      if k_act s =? 0 then if existsb queued (k_po s) then Fail AssertFailed [] else Next (KS (k_act s) (k_nd s ++ [Nd 0 false true false false]) (k_ag s) (k_po s)) [EPost p]
      else walk s (Next (KS (k_act s) (k_nd s ++ [Nd (k_act s) true false false false]) (k_ag s) (map (take p) (k_po s))) [EPost p])
  | LFast p =>                                                                                              (* lines 116-117 *)
      match nth_error (k_nd s) p with Some n => if n_fast n then complete s p (fun s1 => Next s1 [EPostDone p]) else Disabled | None => Disabled end
  | LPoll a =>                                                                                              (* lines 320-350 *)
      match nth_error (k_ag s) a with
      | Some g =>
          if g_on g && negb (g_poll g) then
            if g_seq g <? length (k_nd s) then
              walk s
              match nth_error (k_nd s) (g_seq g) with
              | None => Fail AssertFailed []
              | Some n =>
                  if n_q n then
                    Next (KS (k_act s) (k_nd s) (set_nth (k_ag s) a (Ag true (g_seq g + 1) false None)) (k_po s ++ [Po a (PHas (g_seq g)) false])) [EGot (length (k_po s)) (g_seq g)]
                  else Fail AssertFailed []                                                                 (* line 336 *)
              end
            else Next (KS (k_act s) (k_nd s) (set_nth (k_ag s) a (Ag true (g_seq g) true None)) (k_po s ++ [Po a PQueued false])) []
          else Disabled
      | None => Disabled
      end
  | LTry o =>                                                                                               (* lines 57-67 *)
      match nth_error (k_po s) o with
      | Some r =>
          if o_try r then Disabled else
          match o_at r with
          | PQueued => Next (with_po s o (Po (o_ag r) PCanc true)) []
          | PTaken p => Next (with_po s o (Po (o_ag r) (PTaken p) true)) []
          | _ => Disabled
          end
      | None => Disabled
      end
  | LNotify o =>                                                                                            (* lines 360-367 *)
      match nth_error (k_po s) o with
      | Some r =>
          match o_at r with
          | PTaken p =>
              match nth_error (k_ag s) (o_ag r) with
              | Some g => Next (KS (k_act s) (k_nd s) (set_nth (k_ag s) (o_ag r) (Ag true (g_seq g + 1) false None)) (set_nth (k_po s) o (Po (o_ag r) (PHas p) true))) [EGot o p]
              | None => Disabled
              end
          | PCanc =>
              match nth_error (k_ag s) (o_ag r) with
              | Some g => Next (KS (k_act s) (k_nd s) (set_nth (k_ag s) (o_ag r) (Ag true (g_seq g) false None)) (set_nth (k_po s) o (Po (o_ag r) PNone true))) []
              | None => Disabled
              end
          | _ => Disabled
          end
      | None => Disabled
      end
  | LAck o =>                                                                                               (* lines 209-215 *)
      match nth_error (k_po s) o with
      | Some r =>
          match o_at r with
          | PHas p =>
              node s p (fun n =>
              match n_acks n with
              | 0 => Fail AssertFailed []
              | S m =>
                  Next (with_po (with_nd s p (Nd m (n_q n) (n_fast n) (n_done n) (n_dead n))) o (Po (o_ag r) (match m with 0 => PErase p | S _ => PAcked p end) true)) [EAck o p]
              end)
          | _ => Disabled
          end
      | None => Disabled
      end
  | LAckStep o =>
      match nth_error (k_po s) o with
      | Some r =>
          match o_at r with
          | PErase p =>                                                                                     (* lines 216-220 *)
              walk s (node s p (fun n =>
                if n_q n then Next (with_po (with_nd s p (Nd (n_acks n) false (n_fast n) (n_done n) (n_dead n))) o (Po (o_ag r) (PComp p) true)) [] else Fail BadUnlink []))
          | PComp p => complete s p (fun s1 => Next (with_po s1 o (Po (o_ag r) (PAcked p) true)) [EPostDone p])  (* line 221 *)
          | _ => Disabled
          end
      | None => Disabled
      end
  | LRead o =>                                                                                              (* lines 230-238 *)
      match nth_error (k_po s) o with
      | Some r => match o_at r with PHas p => node s p (fun _ => Next s [ERead o p]) | _ => Disabled end
      | None => Disabled
      end
  | LDestroy p =>
      match nth_error (k_nd s) p with
      | Some n => if n_done n && negb (n_dead n) then Next (with_nd s p (Nd (n_acks n) (n_q n) (n_fast n) true true)) [EDestroy p] else Disabled
      | None => Disabled
      end
  end.

(** Memory locations: the members of the mechanism that mutex_ protects; object, hook, acks_left (the atomic itself, for its lifetime) and receiver of post p; the members of agent a *)
Definition l_mech := 0.
Definition l_obj (p : nat) := 5 * p + 1. Definition l_hook (p : nat) := 5 * p + 2. Definition l_acks (p : nat) := 5 * p + 3. Definition l_rcv (p : nat) := 5 * p + 4.
Definition l_ag (a : nat) := 5 * a + 5.
(** Synchronization objects: mutex_, acks_left *)
Definition x_mtx := 0. Definition x_acks (p : nat) := p + 1.
(** Threads: the calls on an agent; the thread of start() of a poll when it registers at the event; the one that calls complete(), and the owner of the handle; try_cancel(); the poster *)
Definition t_a (a : nat) := 5 * a. Definition t_l (o : nat) := 5 * o + 1. Definition t_o (o : nat) := 5 * o + 2. Definition t_c (o : nat) := 5 * o + 3. Definition t_p (p : nat) := 5 * p + 4.

Section Orders.
(** Whether the fetch_sub() of ack() (line 213) and of detach() (line 288) acquire and release (all true in the code) *)
Variables k_acq k_rel d_acq d_rel : bool.

(** The nodes in queue_; accesses to their hooks; those of the code that gives up the node q, lines 281-290; a critical section of mutex_; state, agent, sequence number and detach() of a poll or an agent (helpers) *)
Definition linked (s : kst) : list nat := filter (fun p => match nth_error (k_nd s) p with Some n => n_q n | None => false end) (seq 0 (length (k_nd s))).
Definition hooks (s : kst) : list mact := map (fun p => Touch (l_hook p) true) (linked s).
Definition retire_acts (s : kst) (q : nat) : list mact := hooks s ++ [Touch (l_acks q) false; Rmw (x_acks q) d_acq d_rel].
Definition crit (l : list mact) : list mact := Lock x_mtx :: Touch l_mech true :: l ++ [Unlock x_mtx].
Definition at_of (s : kst) (o : nat) : pat := match nth_error (k_po s) o with Some r => o_at r | None => PNone end.
Definition ag_of (s : kst) (o : nat) : nat := match nth_error (k_po s) o with Some r => o_ag r | None => 0 end.
Definition seq_of (s : kst) (a : nat) : nat := match nth_error (k_ag s) a with Some g => g_seq g | None => 0 end.
Definition det_of (s : kst) (a : nat) : option (nat * option nat) := match nth_error (k_ag s) a with Some g => g_det g | None => None end.
(** The polls that a post takes over *)
Definition waiting (s : kst) : list nat := filter (fun o => match at_of s o with PQueued => true | _ => false end) (seq 0 (length (k_po s))).

(** The threads whose views a step joins; below, the threads that continue from it; see M_HB.v *)
Definition kh_src (s : kst) (l : klabel) : list nat :=
  match l with
  | LAttach | LPost => []
  | LDetach a | LDet a | LPoll a => [t_a a]
  | LFast p | LDestroy p => [t_p p]
  | LTry o => [t_l o]
  | LNotify o => t_o o :: if match nth_error (k_po s) o with Some r => o_try r | None => false end then [t_c o] else []
  | LAck o | LAckStep o | LRead o => [t_o o]
  end.
Definition kh_dst (s : kst) (l : klabel) : list nat :=
  match l with
  | LAttach => [t_a (length (k_ag s))]
  | LDetach a => [t_a a]
  | LDet a => t_a a :: match det_of s a with Some (_, Some p) => [t_p p] | _ => [] end
  | LPost => t_p (length (k_nd s)) :: if k_act s =? 0 then [] else map t_o (waiting s)
  | LFast p | LDestroy p => [t_p p]
  | LPoll a => let o := length (k_po s) in [t_a a; t_l o; t_o o]
  | LTry o => [t_c o]
  | LNotify o => [t_o o; t_a (ag_of s o)]
  | LAck o | LRead o => [t_o o]
  | LAckStep o => t_o o :: match at_of s o with PComp p => [t_p p] | _ => [] end
  end.
(** The accesses of a step, in program order (lines as in k_step) *)
Definition kh_acts (s : kst) (l : klabel) : list mact :=
  match l with
  | LAttach => Touch (l_ag (length (k_ag s))) true :: crit []
  | LDetach a => Touch (l_ag a) true :: crit (if seq_of s a <? length (k_nd s) then retire_acts s (seq_of s a) else [])
  | LDet a =>
      match det_of s a with
      | Some (_, None) => Touch (l_ag a) true :: crit (retire_acts s (seq_of s a))
      | Some (_, Some p) => [Touch (l_rcv p) false]
      | None => []
      end
  | LPost =>
      let p := length (k_nd s) in
      [Touch (l_obj p) true; Touch (l_rcv p) true; Touch (l_hook p) true; Touch (l_acks p) true] ++
      crit (Touch (l_hook p) true :: if k_act s =? 0 then [] else Touch (l_acks p) true :: hooks s)
  | LFast p => [Touch (l_rcv p) false]
  | LPoll a => Touch (l_ag a) true :: crit (if seq_of s a <? length (k_nd s) then hooks s else [])
  | LTry o => Touch (l_ag (ag_of s o)) false :: crit []
  | LNotify o => [Touch (l_ag (ag_of s o)) (match at_of s o with PTaken _ => true | _ => false end)]
  | LAck o => match at_of s o with PHas p => [Touch (l_acks p) false; Rmw (x_acks p) k_acq k_rel] | _ => [] end
  | LAckStep o => match at_of s o with PErase p => crit (hooks s) | PComp p => [Touch (l_rcv p) false] | _ => [] end
  | LRead o => match at_of s o with PHas p => [Touch (l_obj p) false] | _ => [] end
  | LDestroy p => [Touch (l_obj p) true; Touch (l_hook p) true; Touch (l_acks p) true; Touch (l_rcv p) true]
  end.
(** The model with happens-before, see M_HB.v *)
Definition kh_step := m_step k_step kh_src kh_dst kh_acts.
Definition kh_init : mst := ms_init k_start.
End Orders.
