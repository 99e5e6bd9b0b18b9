(** Which threads and synchronization objects know all accesses to one member of a wait operation: the finite view of P_WaitView extended by
    knowledge, and its reachable set.  (Proof device; nothing in here is part of the model or of the specifications.) *)
From Coq Require Import List Arith Bool Lia NArith.
From Verif Require Import Lts M_Wait P_WaitView M_WaitHB.
Import ListNotations.

(** the mutex of the primitive; the mutex of the event of the operation; state_; the three activities (or the loops that will call them); the
    notification; the thread that takes the step *)
Record kn := Kn { k_mu : bool; k_ev : bool; k_st : bool; k_l : bool; k_p : bool; k_c : bool; k_fin : bool; k_x : bool }.
Definition k_all : kn := Kn true true true true true true true false.
Definition k_of (x : path) (k : kn) : bool := match x with PathL => k_l k | PathP => k_p k | PathC => k_c k end.
Definition k_setx (b : bool) (k : kn) : kn := Kn (k_mu k) (k_ev k) (k_st k) (k_l k) (k_p k) (k_c k) (k_fin k) b.
Definition k_setev (b : bool) (k : kn) : kn := Kn (k_mu k) b (k_st k) (k_l k) (k_p k) (k_c k) (k_fin k) (k_x k).
Definition k_put (x : path) (k : kn) : kn :=
  match x with
  | PathL => Kn (k_mu k) (k_ev k) (k_st k) (k_x k) (k_p k) (k_c k) (k_fin k) (k_x k)
  | PathP => Kn (k_mu k) (k_ev k) (k_st k) (k_l k) (k_x k) (k_c k) (k_fin k) (k_x k)
  | PathC => Kn (k_mu k) (k_ev k) (k_st k) (k_l k) (k_p k) (k_x k) (k_fin k) (k_x k)
  end.
Definition k_putfin (k : kn) : kn := Kn (k_mu k) (k_ev k) (k_st k) (k_l k) (k_p k) (k_c k) (k_x k) (k_x k).

Inductive tact := TLock | TUnlock | TLockEv | TUnlockEv | TFetchOr | TTouch (f : fld).

Definition kexec1 (r : fld) (k : kn) (t : tact) : option kn :=
  match t with
  | TLock => Some (k_setx (k_x k || k_mu k) k)
  | TUnlock => Some (Kn (k_x k) (k_ev k) (k_st k) (k_l k) (k_p k) (k_c k) (k_fin k) (k_x k))
  | TLockEv => Some (k_setx (k_x k || k_ev k) k)
  | TUnlockEv => Some (Kn (k_mu k) (k_x k) (k_st k) (k_l k) (k_p k) (k_c k) (k_fin k) (k_x k))
  | TFetchOr => let b := k_x k || k_st k in Some (Kn (k_mu k) (k_ev k) b (k_l k) (k_p k) (k_c k) (k_fin k) b)
  | TTouch f =>
      if conflict f r then
        if k_x k then Some (if fld_eqb f r then Kn false false false false false false false true else k) else None
      else Some k
  end.
Fixpoint kexec (r : fld) (k : kn) (l : list tact) : option kn :=
  match l with [] => Some k | t :: l' => match kexec1 r k t with Some k' => kexec r k' l' | None => None end end.

Inductive klabel := KV (l : vlabel) | KEnvMu | KEnvEv | KEnvWk | KEnvCn.
Definition klabels : list klabel := map KV vlabels ++ [KEnvMu; KEnvEv; KEnvWk; KEnvCn].

Definition kpath_acts (v : view) (x : path) : list tact :=
  TTouch (FUse x) ::
  match v_pc x v with
  | PListen => TTouch FEvP :: if v_tok v then TLockEv :: (if v_req v then [] else [TTouch FEvH]) ++ [TUnlockEv] else []
  | PTry => TLock :: TTouch FSt :: (match v_node v with NQueued => [TTouch FHook] | _ => [] end) ++ [TUnlock]
  | PTrans _ => [TFetchOr]
  | PUnreg => TTouch FEvP :: if v_tok v then TLockEv :: (if v_req v then [] else [TTouch FEvH]) ++ [TUnlockEv] else []
  | PResume => [TTouch FSt]
  | _ => []
  end.

(** What the thread knows in the beginning, the actions, what is stored afterwards.  Before the start, there is nothing to know.  If operations are
    destroyed eagerly and cancellation was requested, the destruction is assumed not to race. *)
Definition kbegin (eager : bool) (v : view) (k : kn) (l : klabel) : kn :=
  match l with
  | KV (VPath x) => k_setx (k_of x k) k
  | KV VCanNext | KEnvCn => k_setx (k_c k) k
  | KV VWakeNext | KEnvWk => k_setx (k_p k) k
  | KV VDestroy =>
      k_setx (if eager then v_req v || k_fin k
              else k_fin k || k_l k || (match v_p v with PIdle => false | _ => k_p k end) || (match v_c v with PIdle => false | _ => k_c k end)) k
  | KV (VStartQ _ _) | KV (VStartF _ _) => Kn true true true true true true true true
  | _ => k_setx false k
  end.
Definition kacts (v : view) (l : klabel) : list tact :=
  match l with
  | KV (VStartQ _ _) => [TTouch FNew; TTouch (FUse PathL); TLock; TTouch FSt; TTouch FHook; TUnlock]
  | KV (VStartF _ _) => [TTouch FNew; TTouch (FUse PathL); TLock; TTouch FSt; TUnlock]
  | KV (VPath x) => kpath_acts v x
  | KV VCancel => TLockEv :: (match v_cb v with 0 => [] | _ => [TTouch FEvH] end) ++ [TUnlockEv]
  | KV VCanNext => [TTouch FEvH; TTouch (FUse PathC)]
  | KV VTake => [TLock; TTouch FHook; TTouch FSt; TUnlock]
  | KV VWakeNext => [TTouch FHook; TTouch (FUse PathP)]
  | KV VDestroy => [TTouch FDel]
  | KEnvMu => [TLock; TTouch FHook; TUnlock]
  | KEnvEv => [TLockEv; TTouch FEvH; TUnlockEv]
  | KEnvWk => [TTouch FHook]
  | KEnvCn => [TTouch FEvH]
  end.
Definition kend (v : view) (n : bool) (k : kn) (l : klabel) : kn :=
  k_setx false
    match l with
    | KV (VStartQ _ _) | KV (VStartF _ _) => k_setev false (k_put PathL k)
    | KV (VPath x) => if n then k_putfin (k_put x k) else k_put x k
    | KV VCancel => match v_cb v with 0 => k | _ => k_put PathC k end
    | KV VCanNext | KEnvCn => k_put PathC k
    | KV VTake | KV VWakeNext | KEnvWk => k_put PathP k
    | _ => k
    end.
Inductive kout := KNext (v : view) (k : kn) | KDisabled | KFail (f : failure) | KRace.
Definition kfinish (r : fld) (eager : bool) (v v' : view) (n : bool) (k : kn) (l : klabel) : kout :=
  match kexec r (kbegin eager v k l) (kacts v l) with Some k' => KNext v' (kend v n k' l) | None => KRace end.
Definition kstep (r : fld) (eager : bool) (v : view) (k : kn) (l : klabel) : kout :=
  match l with
  | KV vl =>
      match vstep eager v vl with
      | Next v' n => kfinish r eager v v' (match n with [] => false | _ => true end) k l
      | Disabled => KDisabled
      | Fail f _ => KFail f
      end
  | KEnvMu => match v_node v with NQueued => kfinish r eager v v false k l | _ => KDisabled end
  | KEnvEv => match v_cb v with 0 => KDisabled | _ => kfinish r eager v v false k l end
  | KEnvWk => match v_wk v with 0 => KDisabled | _ => kfinish r eager v v false k l end
  | KEnvCn => match v_pd v with 0 => KDisabled | _ => kfinish r eager v v false k l end
  end.

Definition kv_eq_dec (a b : view * kn) : {a = b} + {a <> b}.
Proof. decide equality; [|apply view_eq_dec]. decide equality; apply Bool.bool_dec. Defined.
Definition kv_mem (v : view * kn) (l : list (view * kn)) : bool := existsb (fun w => if kv_eq_dec v w then true else false) l.

Fixpoint kclose (r : fld) (eager : bool) (fuel : nat) (todo seen : list (view * kn)) : list (view * kn) :=
  match fuel with
  | 0 => seen
  | S fuel' =>
      match todo with
      | [] => seen
      | (v, k) :: todo' =>
          let new := fold_left (fun ac l =>
            match kstep r eager v k l with
            | KNext v' k' => if kv_mem (v', k') seen || kv_mem (v', k') ac then ac else (v', k') :: ac
            | _ => ac
            end) klabels [] in
          kclose r eager fuel' (new ++ todo') (new ++ seen)
      end
  end.
Definition RK (r : fld) (eager : bool) : list (view * kn) := kclose r eager (N.to_nat 20000) [(v_init, k_all)] [(v_init, k_all)].

Global Opaque RK.

Definition kclosed_in (r : fld) (eager : bool) (X : list (view * kn)) : bool :=
  forallb (fun vk => forallb (fun l =>
    match kstep r eager (fst vk) (snd vk) l with
    | KNext v' k' => kv_mem (v', k') X
    | KRace => false
    | KDisabled | KFail _ => true
    end) klabels) X.
Definition kclosed (r : fld) (eager : bool) : bool := kclosed_in r eager (RK r eager).

Lemma kv_mem_In v l : kv_mem v l = true -> In v l.
Proof.
  unfold kv_mem. rewrite existsb_exists. intros (w & Hw & He).
  destruct (kv_eq_dec v w); [subst; exact Hw|discriminate].
Qed.

Lemma RK_closed_b : forall r eager, kclosed r eager = true.
Proof. intros [| | | | | |[| |]] [|]; vm_compute; reflexivity. Qed.

Lemma RK_init : forall r eager, In (v_init, k_all) (RK r eager).
Proof.
  intros r eager. assert (H : kv_mem (v_init, k_all) (RK r eager) = true) by (destruct r as [| | | | | |[| |]], eager; vm_compute; reflexivity).
  exact (kv_mem_In _ _ H).
Qed.

Lemma RK_step r eager v k l :
  In (v, k) (RK r eager) -> In l klabels ->
  match kstep r eager v k l with KNext v' k' => In (v', k') (RK r eager) | KRace => False | _ => True end.
Proof.
  intros Hv Hl. pose proof (RK_closed_b r eager) as H. unfold kclosed, kclosed_in in H. rewrite forallb_forall in H. specialize (H _ Hv).
  rewrite forallb_forall in H. specialize (H l Hl). cbn [fst snd] in H. destruct (kstep r eager v k l); try exact I; [|discriminate].
  exact (kv_mem_In _ _ H).
Qed.

(** Decidable facts about all reachable pairs. *)
Lemma RK_check (Q : view * kn -> bool) r eager : forallb Q (RK r eager) = true -> forall v, In v (RK r eager) -> Q v = true.
Proof. intros H v Hv. rewrite forallb_forall in H. auto. Qed.

Lemma klabels_v l : In l vlabels -> In (KV l) klabels.
Proof. intros H. unfold klabels. apply in_or_app. left. now apply in_map. Qed.
Lemma klabels_env l : In l [KEnvMu; KEnvEv; KEnvWk; KEnvCn] -> In l klabels.
Proof. intros H. unfold klabels. apply in_or_app. now right. Qed.

Lemma RK_fresh r eager v k : In (v, k) (RK r eager) -> v_l v = PIdle -> k_fin k = true.
Proof.
  intros Hv Hl. pose (Q := fun vk : view * kn => match v_l (fst vk) with PIdle => k_fin (snd vk) | _ => true end).
  assert (HQ : forallb Q (RK r eager) = true) by (destruct r as [| | | | | |[| |]], eager; vm_compute; reflexivity).
  pose proof (RK_check Q r eager HQ _ Hv) as H. unfold Q in H. cbn [fst snd] in H. now rewrite Hl in H.
Qed.
(** Whoever notifies the receiver knows the accesses to the result and to the hook in the list of the event. *)
Lemma RK_notify r x eager v k : r = FSt \/ r = FEvH -> In (v, k) (RK r eager) -> v_pc x v = PResume \/ v_pc x v = PFast -> k_of x k = true.
Proof.
  intros Hr Hv Hl. pose (Q := fun vk : view * kn => match v_pc x (fst vk) with PResume | PFast => k_of x (snd vk) | _ => true end).
  assert (HQ : forallb Q (RK r eager) = true) by (destruct Hr; subst r; destruct eager, x; vm_compute; reflexivity).
  pose proof (RK_check Q r eager HQ _ Hv) as H. unfold Q in H. cbn [fst snd] in H. destruct Hl as [Hl|Hl]; now rewrite Hl in H.
Qed.
