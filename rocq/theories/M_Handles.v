(** Model of the handles of promise / future and of the reference count of their shared state
    (include/async/promise.hpp 23-35, 107-108, 143-184, 197-239, 336-356, 358-397).

    One step is one call of a member function of a handle.  Simplifications: the allocator is not modelled (freeing is the
    event [EFree]); the atomic decrement and the destruction that follows if it returned zero are one step (nobody else
    can refer to the state then: that is the invariant proved in P_Handles); handles are not used by two threads at the
    same time, but different handles of the same state may be; identifiers of handles and states are not re-used. *)
From Coq Require Import List Arith Bool.
From Verif Require Import Lts.
Import ListNotations.

(** promise_state_base: ctr_ (line 108), and whether it was destroyed *)
Record shared := Sh { s_ctr : nat; s_freed : bool }.
(** a future or a promise; [h_alive]: not destroyed yet; [h_st]: the member state_ *)
Record handle := Hd { h_prom : bool; h_alive : bool; h_st : option nat }.
Record hst := HS { hs_sh : list shared; hs_hd : list handle }.

(** No handles and no states *)
Definition hs_init : hst := HS [] [].

(** The calls; new handles and states are numbered in order of their creation. *)
Inductive hcall :=
| NewPromise                    (* promise() *)
| GetFuture (p : nat)           (* p.get_future() *)
| DefFuture                     (* future() *)
| CopyFuture (f : nat)          (* future(f) *)
| MoveFuture (f : nat)          (* future(std::move(f)) *)
| MovePromise (p : nat)         (* promise(std::move(p)) *)
| CopyAssign (g f : nat)        (* g = f *)
| MoveAssign (g f : nat)        (* g = std::move(f) for futures *)
| SwapFuture (g f : nat)        (* swap(g, f) *)
| AssignPromise (p q : nat)     (* p = std::move(q) *)
| SwapPromise (p q : nat)       (* swap(p, q) *)
| SetValue (p : nat)            (* p.set_value(...) *)
| UseFuture (f : nat)           (* start() of f.get(...): dereferences state_ *)
| Drop (h : nat).               (* destructor *)

(** A call; state k is destroyed and freed (lines 24-26, 115-118) *)
Inductive hevent := ECall (c : hcall) | EFree (k : nat).

(** The result of a part of a call; sequential composition (helpers) *)
Inductive res := Good (s : hst) (es : list hevent) | Bad (f : failure) (es : list hevent).
Definition andthen (r : res) (f : hst -> res) : res :=
  match r with
  | Good s es => match f s with Good s' es' => Good s' (es ++ es') | Bad x es' => Bad x (es ++ es') end
  | Bad x es => Bad x es
  end.

(** Value of state_ of handle h; assignment to it; end of the lifetime of h; a new handle (helpers, cited where they are used) *)
Definition st_of (s : hst) (h : nat) : option nat := match nth_error (hs_hd s) h with Some x => h_st x | None => None end.
Definition set_st (s : hst) (h : nat) (v : option nat) : hst :=
  match nth_error (hs_hd s) h with
  | Some x => HS (hs_sh s) (set_nth (hs_hd s) h (Hd (h_prom x) (h_alive x) v))
  | None => s
  end.
Definition kill (s : hst) (h : nat) : hst :=
  match nth_error (hs_hd s) h with
  | Some x => HS (hs_sh s) (set_nth (hs_hd s) h (Hd (h_prom x) false None))
  | None => s
  end.
Definition new_handle (s : hst) (prom : bool) (v : option nat) : hst := HS (hs_sh s) (hs_hd s ++ [Hd prom true v]).

(** any access to the state behind a pointer *)
Definition deref (s : hst) (v : option nat) (f : nat -> shared -> res) : res :=
  match v with
  | None => Bad NullDeref []
  | Some k =>
      match nth_error (hs_sh s) k with
      | Some x => if s_freed x then Bad UseAfterFree [] else f k x
      | None => Bad UseAfterFree []
      end
  end.

(** state_->ref(), lines 28-30 *)
Definition ref (s : hst) (v : option nat) : res :=
  deref s v (fun k x => Good (HS (set_nth (hs_sh s) k (Sh (s_ctr x + 1) false)) (hs_hd s)) []).
(** if(state_) state_->ref(), lines 216-217, 350-351 *)
Definition ref_if (s : hst) (v : option nat) : res := match v with None => Good s [] | Some _ => ref s v end.
(** if(state_ && !state_->unref()) destruct(alloc_, state_), lines 172-174, 209-211, 221-224; the destructor of the state
    asserts that ctr_ is zero (line 25) *)
Definition unref_if (s : hst) (v : option nat) : res :=
  match v with
  | None => Good s []
  | Some _ => deref s v (fun k x =>
      match s_ctr x with
      | 0 => Bad CounterUnderflow []
      | 1 => Good (HS (set_nth (hs_sh s) k (Sh 0 true)) (hs_hd s)) [EFree k]
      | S c => Good (HS (set_nth (hs_sh s) k (Sh c false)) (hs_hd s)) []
      end)
  end.

Definition do_call (s : hst) (c : hcall) : res :=
  match c with
  | NewPromise =>                     (* lines 149-150; ctr_ = 1, line 108 *)
      Good (HS (hs_sh s ++ [Sh 1 false]) (hs_hd s ++ [Hd true true (Some (length (hs_sh s)))])) []
  | GetFuture p =>                    (* lines 168-170, 347-352 *)
      ref_if (new_handle s false (st_of s p)) (st_of s p)
  | DefFuture => Good (new_handle s false None) []                     (* lines 206-207 *)
  | CopyFuture f => ref_if (new_handle s false (st_of s f)) (st_of s f)  (* lines 214-218 *)
  | MoveFuture f => Good (set_st (new_handle s false (st_of s f)) f None) []   (* lines 232-235 *)
  | MovePromise p => Good (set_st (new_handle s true (st_of s p)) p None) []   (* lines 158-161 *)
  | CopyAssign g f =>                 (* lines 220-230 *)
      andthen (unref_if s (st_of s g)) (fun s1 =>
      let v := st_of s1 f in
      ref (set_st s1 g v) v)
  | MoveAssign g f | SwapFuture g f | SwapPromise g f =>   (* lines 237-240, 199-203, 144-147: swap *)
      let a := st_of s g in let b := st_of s f in
      Good (set_st (set_st s g b) f a) []
  | AssignPromise p q =>              (* lines 163-166: [other] is move-constructed from q, swapped with p and destroyed *)
      let o := st_of s q in
      let s1 := set_st s q None in
      let old := st_of s1 p in
      unref_if (set_st s1 p o) old
  | SetValue p =>                     (* lines 367-376: state_ is dereferenced, then disowned *)
      deref s (st_of s p) (fun _ _ => unref_if (set_st s p None) (st_of s p))
  | UseFuture f => deref s (st_of s f) (fun _ _ => Good s [])     (* lines 255-258 *)
  | Drop h => unref_if (kill s h) (st_of s h)                     (* lines 152-154, 209-212 *)
  end.

(** A call is possible on existing handles of the right kind. *)
Definition is_a (prom : bool) (s : hst) (h : nat) : bool :=
  match nth_error (hs_hd s) h with Some x => h_alive x && Bool.eqb (h_prom x) prom | None => false end.
Definition can_call (s : hst) (c : hcall) : bool :=
  match c with
  | NewPromise | DefFuture => true
  | GetFuture p | MovePromise p | SetValue p => is_a true s p
  | CopyFuture f | MoveFuture f | UseFuture f => is_a false s f
  | CopyAssign g f | MoveAssign g f | SwapFuture g f => is_a false s g && is_a false s f
  | AssignPromise p q | SwapPromise p q => is_a true s p && is_a true s q
  | Drop h => is_a true s h || is_a false s h
  end.

(** One call by a client that only uses existing handles of the right type *)
Definition hstep (s : hst) (c : hcall) : outcome hst hevent :=
  if can_call s c
  then match do_call s c with Good s' es => Next s' (ECall c :: es) | Bad f es => Fail f (ECall c :: es) end
  else Disabled.
