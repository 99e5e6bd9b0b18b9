(** C73: promise / future under the C++ memory model. *)
From Coq Require Import List Arith Bool Lia.
From Verif Require Import Lts M_HB M_PromiseHB S_PromiseHB P_PromiseHB P_PromiseHB2 P_PromiseHB3.
Import ListNotations.

(** The memory orders of the code (promise.hpp 29, 33) *)
Definition code_step := ph_step true true true true.

(** No data race, no failed assertion, no access to the state after its destruction, for any number of handles, copies, gets and cancellations. *)
Theorem C73_promise_race_free : forall ls f tr, run code_step ph_init ls <> Failed f tr.
Proof. exact (promise_norace true true). Qed.
Print Assumptions C73_promise_race_free.

(** Whatever happens before the call of start() happens before the notification of the receiver; so does whatever happens before the call of set_value(), unless the
    get was cancelled. *)
Theorem C73_promise_visible : forall ls h t1 o ok v t2, run code_step ph_init ls = Running h (t1 ++ (EDone o ok, v) :: t2) ->
  sees_get o t1 v /\ (ok = true -> sees_set t1 v).
Proof. intros ls h t1 o ok v t2 Hr. exact (t_done _ _ (promise_TI true true ls h _ Hr) t1 o ok v t2 eq_refl). Qed.
Print Assumptions C73_promise_visible.

(** Whatever happens before anything that was done with the state happens before its destruction. *)
Theorem C73_promise_destroy : forall ls h t1 v t2, run code_step ph_init ls = Running h (t1 ++ (EFree, v) :: t2) -> sees_all t1 v.
Proof. intros ls h t1 v t2 Hr. exact (t_free _ _ (promise_TI true true ls h _ Hr) t1 v t2 eq_refl). Qed.
Print Assumptions C73_promise_destroy.

Definition labels (l : list plabel) : list (plabel * hbs) := map (fun x => (x, [])) l.
(** The promise and its future are destroyed by two threads *)
Definition last : list plabel := [LNew; LCopy 0; LRelease 0 true; LRelease 1 true].

(** The acquire and the release of the fetch_sub() are needed; those of the fetch_add() are not. *)
Theorem C73_promise_orders r_acq r_rel u_acq u_rel :
  (exists ls tr, run (ph_step r_acq r_rel u_acq u_rel) ph_init ls = Failed DataRace tr) <-> u_acq && u_rel = false.
Proof.
  split.
  - intros (ls & tr & Hr). destruct u_acq, u_rel; try reflexivity. exfalso. exact (promise_norace r_acq r_rel ls _ tr Hr).
  - intros H. exists (labels last). destruct r_acq, r_rel, u_acq, u_rel; try discriminate; eexists; vm_compute; reflexivity.
Qed.
Print Assumptions C73_promise_orders.

Definition done_sees (i : nat) (tr : list (pevent * hbs)) : bool := existsb (fun ev => match ev with (EDone _ _, v) => memb i v | _ => false end) tr.
Definition free_sees (i : nat) (tr : list (pevent * hbs)) : bool := existsb (fun ev => match ev with (EFree, v) => memb i v | _ => false end) tr.
Definition access (h : mst (S := pst)) (i : nat) : option maccess := option_map fst (nth_error (mm_log (ms_mem h)) i).

(** A get before set_value(), which completes it; the promise is the last handle (line 375) *)
Definition wait : list plabel := [LNew; LCopy 0; LGet 1; LListen 0 false; LSet 0; LSv 0 false; LSv 0 false; LRead 0; LRelease 1 true; LSv 0 false; LRelease 0 true].
Example C73_wait :
  exists h tr, run code_step ph_init (labels wait) = Running h tr /\ map fst tr = [ENew; ERef 1; EGet 0; ESet; EDone 0 true; ERead 0; EUnref 1; EUnref 0; EFree] /\
    access h 10 = Some (MA l_val true) /\ done_sees 10 tr = true /\ access h 17 = Some (MA l_val false) /\ free_sees 17 tr = true.
Proof. witness. repeat split; vmrefl. Qed.
(** A get after set_value() on a copy of a future that was moved; the future is the last handle *)
Definition late : list plabel := [LNew; LCopy 0; LMove 1; LSet 0; LSv 0 false; LSv 0 false; LCopy 2; LRelease 2 true; LGet 3; LRead 0; LRelease 3 true; LRelease 1 true].
Example C73_late :
  exists h tr, run code_step ph_init (labels late) = Running h tr /\ map fst tr = [ENew; ERef 1; ESet; EUnref 0; ERef 3; EUnref 2; EGet 0; EDone 0 true; ERead 0; EUnref 3; EFree] /\
    access h 7 = Some (MA l_val true) /\ done_sees 7 tr = true /\ free_sees 7 tr = true.
Proof. witness. repeat split; vmrefl. Qed.
(** Two gets, one of them is cancelled while set_value() takes the other one *)
Definition cancelled : list plabel := [LNew; LCopy 0; LGet 1; LGet 1; LListen 0 false; LTry 0; LSet 0; LSv 0 false; LCan 0; LSv 1 false; LTry 1; LListen 1 false; LCan 1; LSv 0 false; LRelease 1 true].
Example C73_cancelled :
  exists h tr, run code_step ph_init (labels cancelled) = Running h tr /\
    map fst tr = [ENew; ERef 1; EGet 0; EGet 1; ESet; EDone 0 false; EDone 1 true; EUnref 0; EUnref 1; EFree] /\
    access h 16 = Some (MA l_val true) /\ map (fun ev => memb 16 (snd ev)) (filter (fun ev => match fst ev with EDone _ _ => true | _ => false end) tr) = [false; true].
Proof. witness. repeat split; vmrefl. Qed.
