(** C76: run(), detach() and spawn() under the C++ memory model. *)
From Coq Require Import List Arith Bool.
From Verif Require Import Lts M_HB M_Run S_Run M_RunHB P_RunHB.
Import ListNotations.

(** If the operation completes inside of start() or wait() and these calls synchronize with the thread on which it completes, then there is no data race ... *)
Theorem C76_run_race_free : forall dm ls f tr, run (uh_step false dm true) uh_init ls = Failed f tr ->
  dm = true /\ f = Panicked /\ exists t, map fst tr = t ++ [UEWait] /\ u_comps t = [].
Proof. exact uh_fails. Qed.
Print Assumptions C76_run_race_free.
(** ... and whatever happens before the completion happens before the return of run(); whatever happens before start() happens before the completion. *)
Theorem C76_run_sees : forall dm ls h t1 x v t2, run (uh_step false dm true) uh_init ls = Running h (t1 ++ (UERet x, v) :: t2) ->
  exists u, In (UEComp x, u) t1 /\ incl u v.
Proof.
  intros dm ls h t1 x v t2 Hr. pose proof (uh_order _ _ _ _ _ _ _ Hr) as H. pose proof (P_Run.run_order _ _ _ _ _ (P_HB.h_run _ _ _ _ _ _ _ _ Hr) (map fst t1) (map fst t2) x) as Ho.
  rewrite map_app in Ho. specialize (Ho eq_refl). unfold u_comps in Ho. apply in_flat_map in Ho. destruct Ho as (e & He & Hx). destruct e; try destruct Hx as [<-|[]]; try destruct Hx.
  apply in_map_iff in He. destruct He as ([e u] & E1 & Hi). simpl in E1. subst e. exists u. split; [exact Hi|]. exact (H _ _ Hi).
Qed.
Print Assumptions C76_run_sees.
(** The latter holds wherever the operation completes, and whether wait() synchronizes or not. *)
Theorem C76_run_started : forall sep dm sync ls h t1 x v t2, run (uh_step sep dm sync) uh_init ls = Running h (t1 ++ (UEComp x, v) :: t2) ->
  forall u, In (UEStart, u) t1 -> incl u v.
Proof. intros sep dm sync ls h t1 x v t2 Hr. exact (proj2 (proj2 (uh_started _ _ _ _ _ _ Hr)) t1 x v t2 eq_refl). Qed.
Print Assumptions C76_run_started.

(** Both conditions are needed: done is not atomic. *)
Definition race_sep : list ulabel := [ULStart; ULComp 7; ULStartRet; ULEmplace; ULDone; ULCheck].
Definition race_nosync : list ulabel := [ULStart; ULComp 7; ULEmplace; ULDone; ULStartRet; ULCheck].
Definition labels {L : Type} (l : list L) : list (L * hbs) := map (fun x => (x, [])) l.
Theorem C76_run_race_refuted : forall sep dm sync, sep = true \/ sync = false -> exists ls tr, run (uh_step sep dm sync) uh_init ls = Failed DataRace tr.
Proof.
  intros [|] dm sync H.
  - exists (labels race_sep). destruct dm, sync; eexists; vm_compute; reflexivity.
  - destruct H as [H| ->]; [discriminate|]. exists (labels race_nosync). destruct dm; eexists; vm_compute; reflexivity.
Qed.
Print Assumptions C76_run_race_refuted.
Theorem C76_run_race_iff : forall sep dm sync, (exists ls tr, run (uh_step sep dm sync) uh_init ls = Failed DataRace tr) <-> sep = true \/ sync = false.
Proof.
  intros sep dm sync. split; [|apply C76_run_race_refuted]. intros (ls & tr & H). destruct sep; [auto|]. destruct sync; [|auto]. apply uh_fails in H. destruct H as (_ & H & _). discriminate H.
Qed.
Print Assumptions C76_run_race_iff.

(** detach() and spawn() have no data race, on whatever thread the operation completes. *)
Theorem C76_detach_spawn_race_free : forall sp ls f tr, run (dh_step sp) dh_init ls <> Failed f tr.
Proof. exact dh_safe. Qed.
Print Assumptions C76_detach_spawn_race_free.
(** Whatever happens before the call or before the completion of the operation happens before the call of the continuation or of the receiver and before the block is freed. *)
Theorem C76_detach_spawn_sees : forall sp ls h t1 e v t2, run (dh_step sp) dh_init ls = Running h (t1 ++ (e, v) :: t2) -> forall e' u, In (e', u) t1 -> incl u v.
Proof. exact dh_order. Qed.
Print Assumptions C76_detach_spawn_sees.

Definition access {S : Type} (h : mst (S := S)) (i : nat) : option maccess := option_map fst (nth_error (mm_log (ms_mem h)) i).
Example C76_run :
  exists h tr, run (uh_step false false true) uh_init (labels [ULStart; ULStartRet; ULCheck; ULComp 7; ULEmplace; ULDone; ULWaitRet; ULCheck]) = Running h tr /\
    map fst tr = [UEStart; UEWait; UEComp 7; UEWaitRet; UERet 7] /\ access h 8 = Some (MA l_done true) /\ access h 9 = Some (MA l_done false) /\
    forall v, In (UERet 7, v) tr -> In 8 v /\ In 4 v.
Proof. witness. split; [vmrefl|]. split; [vmrefl|]. split; [vmrefl|]. intros v H. vm_compute in H. repeat destruct H as [[=]|H]; try destruct H. subst v. simpl. tauto. Qed.
Example C76_spawn :
  exists h tr, run (dh_step true) dh_init (labels [DLAlloc; DLStart; DLComp 3; DLStep; DLStep; DLStep]) = Running h tr /\ map fst tr = spawn_trace 3 /\ access h 0 = Some (MA l_block true) /\
    forall v, In (DERecv 3, v) tr -> In 0 v.
Proof. witness. split; [vmrefl|]. split; [vmrefl|]. intros v H. vm_compute in H. repeat destruct H as [[=]|H]; try destruct H. subst v. simpl. tauto. Qed.
(** The operation completes on another thread, while start() runs. *)
Example C76_started :
  exists h tr, run (uh_step true false false) uh_init (labels [ULStart; ULComp 7]) = Running h tr /\ forall v, In (UEComp 7, v) tr -> In 0 v /\ In 2 v /\ access h 2 = Some (MA l_operation true).
Proof. witness. intros v H. vm_compute in H. repeat destruct H as [[=]|H]; try destruct H. subst v. simpl. repeat split; auto. Qed.
