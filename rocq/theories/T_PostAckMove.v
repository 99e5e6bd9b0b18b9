(** post_ack_handle as a type: moving, swapping, assigning and destroying the handles of M_PostAck.v. *)
From Coq Require Import List Arith Bool.
From Verif Require Import Lts M_Wait S_Wait M_PostAck S_PostAck M_PostAckMove S_PostAckMove P_PostAckMove.
Import ListNotations.

Definition hrun T eager := run (v_step (T := T) eager) v_init.

(** ** C77 *)
(** No two variables hold the same handle. *)
Theorem C77_handle_owner : forall T eager ls s tr x y o, hrun T eager ls = Running s tr -> quiet tr ->
  owner (vars_of tr) x o -> owner (vars_of tr) y o -> x = y.
Proof. exact @move_owner. Qed.
Print Assumptions C77_handle_owner.

(** A handle is not lost: a variable holds it until ack() is called. *)
Theorem C77_handle_kept : forall T eager ls s tr x o, hrun T eager ls = Running s tr -> quiet tr -> In (VNew x o) tr ->
  (exists y, vars_of tr y = Some (Holds o)) \/ In (EPrim (EAck o : PE (post_ack T))) (api tr).
Proof. exact @move_kept. Qed.
Print Assumptions C77_handle_kept.

(** The destructor and the assignment detect that a handle would be lost. *)
Theorem C77_handle_drop : forall T eager ls s tr x o, hrun T eager ls = Running s tr -> quiet tr -> vars_of tr x = Some (Holds o) ->
  v_step eager s (MDestroy x) = Fail AssertFailed [VDestroy x] /\
  forall y h, y <> x -> vars_of tr y = Some h -> v_step eager s (MAssign x y) = Fail AssertFailed [VAssign x y].
Proof. exact @move_drop. Qed.
Print Assumptions C77_handle_drop.

(** If the variables are used as they should be, what happens is a run of M_PostAck.v in which handles are used as they should be: C32 and C33 apply. *)
Theorem C77_handle_calls : forall T eager ls s tr, hrun T eager ls = Running s tr -> v_rule tr ->
  (exists ls', run (step (post_ack T) eager) (c_init (post_ack T)) ls' = Running (v_s s) (api tr)) /\ well_behaved (api tr).
Proof. exact @move_base. Qed.
Print Assumptions C77_handle_calls.

(** Each handle is acknowledged at most once, whichever variables it passes through. *)
Theorem C77_handle_once : forall T eager ls s tr o, hrun T eager ls = Running s tr -> v_rule tr -> acks o (api tr) <= 1.
Proof. exact @move_acks. Qed.
Print Assumptions C77_handle_once.

(** A variable that holds an acknowledged handle got it from a variable on which ack() was called. *)
Theorem C77_handle_acked : forall T eager ls s tr x o, hrun T eager ls = Running s tr -> quiet tr -> vars_of tr x = Some (Acked o) ->
  In (EPrim (EAck o : PE (post_ack T))) (api tr).
Proof. exact @move_acked. Qed.
Print Assumptions C77_handle_acked.

(** Dereferencing gives the object of the post that the handle belongs to, wherever the handle was moved to. *)
Theorem C77_handle_read : forall T eager ls s t1 x t2, hrun T eager ls = Running s (t1 ++ VRead x :: t2) -> v_rule (t1 ++ VRead x :: t2) ->
  exists o p obj t3, vars_of t1 x = Some (Holds o) /\ t2 = VB (EPrim (ERead o (Some obj) : PE (post_ack T))) :: t3 /\
    In (EDone (P := post_ack T) o (Some p)) (api t1) /\ In (EPrim (EPost p obj : PE (post_ack T))) (api t1).
Proof. exact @move_read. Qed.
Print Assumptions C77_handle_read.

(** operator bool tells whether there is a handle. *)
Theorem C77_handle_bool : forall T eager ls s t1 x b t2, hrun T eager ls = Running s (t1 ++ VBool x b :: t2) -> quiet (t1 ++ VBool x b :: t2) ->
  (b = true <-> exists o, owner (vars_of t1) x o).
Proof. exact @move_bool. Qed.
Print Assumptions C77_handle_bool.

(** Nothing fails, apart from the failure of C04 (which does not concern handles). *)
Theorem C77_handle_safe : forall T ls f tr, hrun T false ls = Failed f tr -> ~ v_rule tr.
Proof. exact move_safe. Qed.
Print Assumptions C77_handle_safe.

Theorem C77_handle_fail : forall T eager ls f tr, hrun T eager ls = Failed f tr -> v_rule tr ->
  eager = true /\ f = UseAfterFree /\ exists o, In (EDestroy (P := post_ack T) o) (api tr) /\ notified o (api tr) = 1 /\ cancel_requested o (api tr).
Proof. exact @move_fail. Qed.
Print Assumptions C77_handle_fail.

(** ** Witnesses *)
Notation KP := (post_ack nat).
(** Both agents receive post 0 (operations 0 and 1); the handles are swapped, assigned and moved; both are read and acknowledged. *)
Definition mdemo : list (vlabel (T := nat)) :=
  [MBase (LPrim (KAttach 0 : PL KP)); MBase (LPrim (KAttach 1 : PL KP)); MBase (LPrim (KPost 0 50 : PL KP));
   MBase (LStart (P := KP) 0 None 0); MBase (LPath 0 PathL); MBase (LStart (P := KP) 1 None 1); MBase (LPath 1 PathL);
   MNew 0 0; MNew 1 1; MSwap 0 1; MNull 2; MAssign 2 0; MCtor 3 1; MBool 1; MRead 3; MAck 3; MBool 3; MAssign 3 3; MRead 2; MAssign 3 0; MAck 2; MAckStep 1; MAckStep 1;
   MDestroy 2; MDestroy 3; MDestroy 0; MDestroy 1].
Definition mdemo_trace : list (vevent (T := nat)) :=
  [VB (EPrim (EAttach 0 : PE KP)); VB (EPrim (EAttach 1 : PE KP)); VB (EPrim (EPost 0 50 : PE KP));
   VB (EStart (P := KP) 0 None 0); VB (EDone (P := KP) 0 (Some 0)); VB (EStart (P := KP) 1 None 1); VB (EDone (P := KP) 1 (Some 0));
   VNew 0 0; VNew 1 1; VSwap 0 1; VNull 2; VAssign 2 0; VCtor 3 1; VBool 1 false; VRead 3; VB (EPrim (ERead 0 (Some 50) : PE KP));
   VAck 3; VB (EPrim (EAck 0 : PE KP)); VAcked 3; VBool 3 true; VAssign 3 3; VRead 2; VB (EPrim (ERead 1 (Some 50) : PE KP)); VAssign 3 0;
   VAck 2; VB (EPrim (EAck 1 : PE KP)); VB (EPrim (EPostDone 0 : PE KP)); VAcked 2; VDestroy 2; VDestroy 3; VDestroy 0; VDestroy 1].
Example mdemo_run : exists s, hrun nat false mdemo = Running s mdemo_trace /\ v_rule mdemo_trace.
Proof. unfold hrun. witness. apply v_ruleb_sound. vmrefl. Qed.

(** [firstn 14 mdemo]: both handles are held, by the variables 2 and 3. *)
Example mdemo_holds : exists s tr, hrun nat false (firstn 14 mdemo) = Running s tr /\
  v_rule tr /\ vars_of tr 3 = Some (Holds 0) /\ vars_of tr 2 = Some (Holds 1) /\ vars_of tr 0 = Some Empty.
Proof. unfold hrun. witness. split; [apply v_ruleb_sound; vmrefl|]. split; [vmrefl|]. split; vmrefl. Qed.

(** Variable 2 is overwritten, or destroyed. *)
Example mdemo_overwrite : exists tr, hrun nat false (firstn 14 mdemo ++ [MAssign 2 3]) = Failed AssertFailed tr /\ tr = firstn 14 mdemo_trace ++ [VAssign 2 3].
Proof. unfold hrun. witness. vmrefl. Qed.
Example mdemo_destroy : exists tr, hrun nat false (firstn 14 mdemo ++ [MDestroy 2]) = Failed AssertFailed tr /\ tr = firstn 14 mdemo_trace ++ [VDestroy 2].
Proof. unfold hrun. witness. vmrefl. Qed.

(** Using the variables that the handles were moved from *)
Example mdemo_moved : exists tr, hrun nat false (firstn 14 mdemo ++ [MRead 0]) = Failed AssertFailed tr /\ tr = firstn 14 mdemo_trace ++ [VRead 0].
Proof. unfold hrun. witness. vmrefl. Qed.

(** ** That operator bool is true does not mean that the handle may be dereferenced: ack() leaves nd_ alone, and the post may be gone. *)
Theorem C77_handle_bool_refuted : exists ls s tr x, hrun nat false ls = Running s (tr ++ [VBool x true]) /\ v_rule (tr ++ [VBool x true]) /\
  exists tr', hrun nat false (ls ++ [MRead x]) = Failed UseAfterFree tr'.
Proof.
  exists (firstn 23 mdemo ++ [MBool 2]), (state_of v_init (hrun nat false (firstn 23 mdemo ++ [MBool 2]))). exists (firstn 28 mdemo_trace), 2. split; [|split].
  - apply running_intro. vmrefl.
  - apply v_ruleb_sound. vmrefl.
  - unfold hrun. witness.
Qed.
Print Assumptions C77_handle_bool_refuted.
