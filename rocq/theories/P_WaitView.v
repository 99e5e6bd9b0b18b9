(** The finite "view" of one wait operation in the machine of M_Wait, and its reachable set.
    (Proof device; nothing in here is part of the model or of the specifications.) *)
From Coq Require Import List Arith Bool Lia NArith.
From Verif Require Import Lts M_Wait.
Import ListNotations.

Record view := View {
  v_tok : bool; v_req : bool; v_bits : mask;
  v_l : pc; v_p : pc; v_c : pc;
  v_node : nst; v_done : bool; v_alive : bool; v_fast : bool;
  v_cb : nat; v_wk : nat; v_pd : nat
}.

Definition v_init : view :=
  View false false no_bits PIdle PIdle PIdle NFresh false true false 0 0 0.

Inductive vlabel :=
| VStartQ (tok req : bool) | VStartF (tok req : bool)
| VPath (x : path) | VCancel | VCanNext | VTake | VWakeNext | VDestroy.

Definition vlabels : list vlabel :=
  [VStartQ false false; VStartQ true false; VStartQ true true;
   VStartF false false; VStartF true false; VStartF true true;
   VPath PathL; VPath PathP; VPath PathC; VCancel; VCanNext; VTake; VWakeNext; VDestroy].

Definition v_pc (x : path) (v : view) : pc :=
  match x with PathL => v_l v | PathP => v_p v | PathC => v_c v end.

Definition v_set (x : path) (p : pc) (v : view) : view :=
  match x with
  | PathL => View (v_tok v) (v_req v) (v_bits v) p (v_p v) (v_c v) (v_node v) (v_done v) (v_alive v) (v_fast v) (v_cb v) (v_wk v) (v_pd v)
  | PathP => View (v_tok v) (v_req v) (v_bits v) (v_l v) p (v_c v) (v_node v) (v_done v) (v_alive v) (v_fast v) (v_cb v) (v_wk v) (v_pd v)
  | PathC => View (v_tok v) (v_req v) (v_bits v) (v_l v) (v_p v) p (v_node v) (v_done v) (v_alive v) (v_fast v) (v_cb v) (v_wk v) (v_pd v)
  end.
Definition v_setbits (m : mask) (v : view) : view :=
  View (v_tok v) (v_req v) m (v_l v) (v_p v) (v_c v) (v_node v) (v_done v) (v_alive v) (v_fast v) (v_cb v) (v_wk v) (v_pd v).
Definition v_setdone (v : view) : view :=
  View (v_tok v) (v_req v) (v_bits v) (v_l v) (v_p v) (v_c v) (v_node v) true (v_alive v) (v_fast v) (v_cb v) (v_wk v) (v_pd v).
Definition v_setnode (n : nst) (v : view) : view :=
  View (v_tok v) (v_req v) (v_bits v) (v_l v) (v_p v) (v_c v) n (v_done v) (v_alive v) (v_fast v) (v_cb v) (v_wk v) (v_pd v).
Definition v_setdead (v : view) : view :=
  View (v_tok v) (v_req v) (v_bits v) (v_l v) (v_p v) (v_c v) (v_node v) (v_done v) false (v_fast v) (v_cb v) (v_wk v) (v_pd v).
Definition v_setcnt (cb wk pd : nat) (v : view) : view :=
  View (v_tok v) (v_req v) (v_bits v) (v_l v) (v_p v) (v_c v) (v_node v) (v_done v) (v_alive v) (v_fast v) cb wk pd.
Definition v_setreq (v : view) : view :=
  View (v_tok v) true (v_bits v) (v_l v) (v_p v) (v_c v) (v_node v) (v_done v) (v_alive v) (v_fast v) (v_cb v) (v_wk v) (v_pd v).

(** [Next _ [tt]] means: the receiver is notified in this step. *)
Definition vstep (eager : bool) (v : view) (l : vlabel) : outcome view unit :=
  match l with
  | VStartQ tok req =>
      match v_l v with
      | PIdle => Next (View tok req no_bits PListen (v_p v) (v_c v) NQueued (v_done v) (v_alive v) false (v_cb v) (v_wk v) (v_pd v)) []
      | _ => Disabled
      end
  | VStartF tok req =>
      match v_l v with
      | PIdle => Next (View tok req no_bits PFast (v_p v) (v_c v) (v_node v) (v_done v) (v_alive v) true (v_cb v) (v_wk v) (v_pd v)) []
      | _ => Disabled
      end
  | VPath x =>
      match v_pc x v with
      | PIdle | PEnd => Disabled
      | p =>
        if negb (v_alive v) then Fail UseAfterFree [] else
        match p with
        | PFast => if v_fast v then
                     (if v_done v then Fail AssertFailed [] else Next (v_set x PEnd (v_setdone v)) [tt])
                   else Fail NullDeref []
        | PListen =>
            if v_tok v then
              if v_req v then Next (v_set x PTry v) []
              else Next (v_set x (PTrans bit_L) (v_setcnt (S (v_cb v)) (v_wk v) (v_pd v) v)) []
            else Next (v_set x (PTrans (Mask true false true)) v) []
        | PTry =>
            match v_node v with
            | NQueued => Next (v_set x (PTrans (try_mask x true)) (v_setnode NCancelled v)) []
            | NTaken => Next (v_set x (PTrans (try_mask x false)) v) []
            | _ => Fail BadUnlink []
            end
        | PTrans m =>
            if moverlap (v_bits v) m then Fail AssertFailed []
            else
              let st := mor (v_bits v) m in
              Next (v_set x (if negb (mL st) || negb (mP st) then PEnd
                             else if negb (mC st) then PUnreg else PResume) (v_setbits st v)) []
        | PUnreg =>
            if v_tok v then
              if v_req v then Next (v_set x PEnd v) []
              else match v_cb v with
                   | S n => Next (v_set x PResume (v_setcnt n (v_wk v) (v_pd v) v)) []
                   | 0 => Fail BadUnlink []
                   end
            else Fail AssertFailed []
        | PResume => if v_done v then Fail AssertFailed [] else Next (v_set x PEnd (v_setdone v)) [tt]
        | PIdle | PEnd => Disabled
        end
      end
  | VCancel =>
      if v_tok v then Next (v_setreq (v_setcnt 0 (v_wk v) (v_cb v + v_pd v) v)) [] else Disabled
  | VCanNext =>
      match v_pd v with
      | S n =>
          if negb (v_alive v) then Fail UseAfterFree [] else
          match v_c v with
          | PIdle => Next (v_set PathC PTry (v_setcnt (v_cb v) (v_wk v) n v)) []
          | _ => Fail AssertFailed []
          end
      | 0 => Disabled
      end
  | VTake =>
      match v_node v with
      | NQueued => Next (v_setnode NTaken (v_setcnt (v_cb v) (S (v_wk v)) (v_pd v) v)) []
      | _ => Disabled
      end
  | VWakeNext =>
      match v_wk v with
      | S n =>
          if negb (v_alive v) then Fail UseAfterFree [] else
          match v_p v with
          | PIdle => Next (v_set PathP (PTrans bit_P) (v_setcnt (v_cb v) n (v_pd v) v)) []
          | _ => Fail AssertFailed []
          end
      | 0 => Disabled
      end
  | VDestroy =>
      if v_done v && v_alive v && (eager || (ended (v_l v) && ended (v_p v) && ended (v_c v)))
      then Next (v_setdead v) [] else Disabled
  end.

Definition mask_eq_dec (a b : mask) : {a = b} + {a <> b}.
Proof. decide equality; apply Bool.bool_dec. Defined.
Definition pc_eq_dec (a b : pc) : {a = b} + {a <> b}.
Proof. decide equality; apply mask_eq_dec. Defined.
Definition nst_eq_dec (a b : nst) : {a = b} + {a <> b}.
Proof. decide equality. Defined.
Definition view_eq_dec (a b : view) : {a = b} + {a <> b}.
Proof. decide equality; try apply Nat.eq_dec; try apply Bool.bool_dec;
  try apply nst_eq_dec; try apply pc_eq_dec; apply mask_eq_dec. Defined.

Definition v_mem (v : view) (l : list view) : bool := existsb (fun w => if view_eq_dec v w then true else false) l.

Fixpoint close (eager : bool) (fuel : nat) (todo seen : list view) : list view :=
  match fuel with
  | 0 => seen
  | S fuel' =>
      match todo with
      | [] => seen
      | v :: todo' =>
          let new := fold_left (fun acc l =>
            match vstep eager v l with
            | Next v' _ => if v_mem v' seen || v_mem v' acc then acc else v' :: acc
            | _ => acc
            end) vlabels [] in
          close eager fuel' (new ++ todo') (new ++ seen)
      end
  end.

Definition reach_all (eager : bool) : list view :=
  close eager (N.to_nat 5000) [v_init] [v_init].

Definition R_lazy : list view := Eval vm_compute in reach_all false.
Definition R_eager : list view := Eval vm_compute in reach_all true.
Definition R (eager : bool) : list view := if eager then R_eager else R_lazy.

(** The only failure that can happen if operations are destroyed eagerly: use-after-free while unregistering. *)
Definition fail_ok (eager : bool) (v : view) (l : vlabel) (f : failure) : bool :=
  match eager, f, l with
  | true, UseAfterFree, VPath x => match v_pc x v with PUnreg => v_done v | _ => false end
  | _, _, _ => false
  end.

Lemma R_init : forall eager, In v_init (R eager).
Proof. intros [|]; [unfold R, R_eager|unfold R, R_lazy]; repeat (first [left; reflexivity | right]). Qed.

Definition closed (eager : bool) : bool :=
  forallb (fun v => forallb (fun l =>
    match vstep eager v l with
    | Next v' _ => v_mem v' (R eager)
    | Disabled => true
    | Fail f _ => fail_ok eager v l f
    end) vlabels) (R eager).

Lemma R_closed_b : forall eager, closed eager = true.
Proof. intros [|]; vm_compute; reflexivity. Qed.

Lemma v_mem_In v l : v_mem v l = true -> In v l.
Proof.
  unfold v_mem. rewrite existsb_exists. intros (w & Hw & He).
  destruct (view_eq_dec v w); [subst; exact Hw|discriminate].
Qed.

Lemma R_closed eager v l v' n :
  In v (R eager) -> In l vlabels -> vstep eager v l = Next v' n -> In v' (R eager).
Proof.
  intros Hv Hl Hs. pose proof (R_closed_b eager) as H.
  unfold closed in H. rewrite forallb_forall in H. specialize (H v Hv).
  rewrite forallb_forall in H. specialize (H l Hl). rewrite Hs in H. now apply v_mem_In.
Qed.

Lemma R_fail eager v l f n :
  In v (R eager) -> In l vlabels -> vstep eager v l = Fail f n -> fail_ok eager v l f = true.
Proof.
  intros Hv Hl Hs. pose proof (R_closed_b eager) as H.
  unfold closed in H. rewrite forallb_forall in H. specialize (H v Hv).
  rewrite forallb_forall in H. specialize (H l Hl). now rewrite Hs in H.
Qed.

(** Decidable facts about all reachable views. *)
Lemma R_check (Q : view -> bool) eager :
  forallb Q (R eager) = true -> forall v, In v (R eager) -> Q v = true.
Proof. intros H v Hv. rewrite forallb_forall in H. auto. Qed.
