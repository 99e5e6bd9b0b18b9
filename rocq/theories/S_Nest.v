(** What expressions of senders mean: the complete traces of the structured concurrent program, see M_Nest.v. *)
From Coq Require Import List Arith Bool.
From Verif Require Import Lts M_Nest.
Import ListNotations.

(** t is an interleaving of ts *)
Inductive shuffle {A} : list (list A) -> list A -> Prop :=
| sh_nil : forall ts, (forall t, In t ts -> t = []) -> shuffle ts []
| sh_cons : forall ts i a u t, nth_error ts i = Some (a :: u) -> shuffle (set_nth ts i u) t -> shuffle ts (a :: t).

(** what follows the events of the w-th one *)
Definition aug {A} (ts : list (list A)) (w : nat) (cs : list A) : list (list A) :=
  match nth_error ts w with Some t => set_nth ts w (t ++ cs) | None => ts end.
(** the tokens of all functors of the race r, which has n, but the w-th one are cancelled *)
Definition cancels (r w n : nat) : list nevent := map (NCancel r) (filter (fun j => negb (j =? w)) (seq 0 n)).

(** [beh x t v]: x may run with the events t and complete with v. *)
Inductive beh : ex -> list nevent -> nat -> Prop :=
| b_inv : forall f v, beh (XInv f) [NCall f 0; NRet f v] v
| b_leaf : forall i v, beh (XLeaf i) [NLeaf i; NComp i v] v
| b_trans : forall x f t w v, beh x t w -> beh (XTrans x f) (t ++ [NCall f w; NRet f v]) v
| b_then : forall c a b v t w, v <> 0 -> beh a t w -> beh (XIte c a b) (NCall c 0 :: NRet c v :: t) w
| b_else : forall c a b t w, beh b t w -> beh (XIte c a b) (NCall c 0 :: NRet c 0 :: t) w
| b_end : forall c g body, beh (XRep c g body) [NCall c 0; NRet c 0] 0
| b_rep : forall c g body v y t w t' w', v <> 0 -> beh (body y) t w -> beh (XRep c g body) t' w' ->
    beh (XRep c g body) (NCall c 0 :: NRet c v :: NCall g 0 :: NRet g y :: t ++ t') w'
| b_let : forall p g body v y t w, beh (body y) t w -> beh (XLet p g body) (NCall p 0 :: NRet p v :: NCall g v :: NRet g y :: t) w
| b_seq : forall x l t v, behs x l t v -> beh (XSeq x l) t v
| b_all : forall x l ts t, behl (x :: l) ts -> shuffle ts t -> beh (XAll x l) t 0
| b_race : forall r x l ts w t, behl (x :: l) ts -> w < length (x :: l) ->
    shuffle (aug ts w (cancels r w (length (x :: l)))) t -> beh (XRace r x l) t 0
(** one after the other, with the result of the last one *)
with behs : ex -> list ex -> list nevent -> nat -> Prop :=
| bs_last : forall x t v, beh x t v -> behs x [] t v
| bs_next : forall x y l t w t' v, beh x t w -> behs y l t' v -> behs x (y :: l) (t ++ t') v
(** each one *)
with behl : list ex -> list (list nevent) -> Prop :=
| bl_nil : behl [] []
| bl_cons : forall x l t v ts, beh x t v -> behl l ts -> behl (x :: l) (t :: ts).

(** Counting: leaf operations that run, user functions that run *)
Definition n_leaf (e : nevent) : nat := match e with NLeaf _ => 1 | _ => 0 end.
Definition n_comp (e : nevent) : nat := match e with NComp _ _ => 1 | _ => 0 end.
Definition n_call (e : nevent) : nat := match e with NCall _ _ => 1 | _ => 0 end.
Definition n_ret (e : nevent) : nat := match e with NRet _ _ => 1 | _ => 0 end.
Definition total (f : nevent -> nat) (tr : list nevent) : nat := sum (map f tr).
(** No leaf operation and no user function is running. *)
Definition env_idle (tr : list nevent) : Prop := total n_leaf tr = total n_comp tr /\ total n_call tr = total n_ret tr.

(** No when_all and no race_and_cancel *)
Inductive sequential : ex -> Prop :=
| sq_inv : forall f, sequential (XInv f)
| sq_leaf : forall i, sequential (XLeaf i)
| sq_trans : forall x f, sequential x -> sequential (XTrans x f)
| sq_ite : forall c a b, sequential a -> sequential b -> sequential (XIte c a b)
| sq_rep : forall c g body, (forall v, sequential (body v)) -> sequential (XRep c g body)
| sq_let : forall p g body, (forall v, sequential (body v)) -> sequential (XLet p g body)
| sq_seq : forall x l, (forall y, In y (x :: l) -> sequential y) -> sequential (XSeq x l).
