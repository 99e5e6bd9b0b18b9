(** Specification vocabulary for recurring_event, sequenced_event and barrier: functions on traces. *)
From Coq Require Import List Arith Bool ZArith.
From Verif Require Import Lts M_Wait S_Wait M_Recurring.
Import ListNotations.

(** raise() took effect (for recurring_event itself, or inside of sequenced_event / barrier). *)
Definition is_raise {U : ruser} (e : event (recurring_prim U)) : bool :=
  match e with EPrim ERaise => true | _ => false end.

(** How many events satisfying [f] a trace contains. *)
Definition count {E : Type} (f : E -> bool) (tr : list E) : nat := length (filter f tr).

(** A wait reports 'cancelled', 'awaited', ... *)

(** *** sequenced_event *)
(** raise() incremented the sequence number. *)
Definition is_bump (e : event sequenced) : bool :=
  match e with EPrim (EUser ESeqRaise) => true | _ => false end.

(** The current sequence number: how often raise() took effect. *)
Definition seqno (tr : list (event sequenced)) : nat := count is_bump tr.

(** No raise() call is between its two steps. *)
Definition no_raise_in_progress (tr : list (event sequenced)) : Prop := seqno tr = count is_raise tr.

(** Client rule: nobody waits for a sequence number from the future. *)
Definition seq_rule (tr : list (event sequenced)) : Prop :=
  forall tr1 o tok n tr2, tr = tr1 ++ EStart (P := sequenced) o tok n :: tr2 -> n <= seqno tr1.

(** *** barrier *)
(** An arrival: number of arrivals, change of the expected count, token returned. *)
Definition arrival : Type := (Z * Z * nat)%type.

Fixpoint arrivals {e0} (tr : list (event (barrier e0))) : list arrival :=
  match tr with
  | [] => []
  | EPrim (EUser (EArrive n d k)) :: tr' => (n, d, k) :: arrivals tr'
  | _ :: tr' => arrivals tr'
  end.

Definition arrived (l : list arrival) : Z := fold_right Z.add 0%Z (map (fun a => fst (fst a)) l).
Definition adjusted (l : list arrival) : Z := fold_right Z.add 0%Z (map (fun a => snd (fst a)) l).

(** [e]: expected count at the begin of the phase; [l]: the arrivals of the phase so far. *)
Definition short (e : Z) (l : list arrival) : Prop := (arrived l < e + adjusted l)%Z.
Definition all_short (e : Z) (l : list arrival) : Prop :=
  forall l1 l2, l = l1 ++ l2 -> l1 <> [] -> short e l1.
(** the phase is still open *)
Definition open_phase (e : Z) (k : nat) (l : list arrival) : Prop :=
  all_short e l /\ Forall (fun a => snd a = k) l.
(** the last arrival of [l] completed the phase *)
Definition full_phase (e : Z) (k : nat) (l : list arrival) : Prop :=
  (exists l0 a, l = l0 ++ [a] /\ all_short e l0) /\ arrived l = (e + adjusted l)%Z /\ Forall (fun a => snd a = k) l.

(** [log e k l k' e' l']: starting in phase [k] with expected count [e], the arrivals [l] complete the phases
    k, ..., k'-1; phase k' starts with expected count e' and has seen the arrivals l'. *)
Inductive log : Z -> nat -> list arrival -> nat -> Z -> list arrival -> Prop :=
| log_open e k l : open_phase e k l -> log e k l k e l
| log_full e k l m k' e' l' : full_phase e k l -> log (e + adjusted l) (S k) m k' e' l' -> log e k (l ++ m) k' e' l'.

(** The number of phases completed so far (each completion is followed by a raise of the event). *)
Definition phases {e0} (tr : list (event (barrier e0))) (k : nat) : Prop :=
  exists e l, log e0 0 (arrivals tr) k e l.
