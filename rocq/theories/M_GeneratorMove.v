(** The objects of type generator<T> (include/async/generator.hpp 60-75, 97-117): construction, moving, assignment, destruction and next(), for any number of variables and
    coroutine frames; each frame behaves as in M_Generator.v.

    Simplifications: as in M_Generator.v; the coroutine that is called by the initialiser of a variable is arbitrary; generators inside of coroutine frames are not
    distinguished from other variables. *)
From Coq Require Import List Arith Bool.
From Verif Require Import Lts M_Generator.
Import ListNotations.

(** The frames; for each variable that exists h_ (line 116); for each next_sender that was created h_ (line 98) *)
Record wst := WS { w_fr : nat -> option gst; w_var : nat -> option (option nat); w_snd : nat -> option (option nat) }.
Definition w_init : wst := WS (fun _ => None) (fun _ => None) (fun _ => None).

Inductive wlabel :=
| WLCall (x f : nat)            (* generator x = coroutine(...), whose frame is f *)
| WLCtor (y x : nat)            (* generator y{std::move(x)} *)
| WLAssign (y x : nat)          (* y = std::move(x) *)
| WLDestroy (x : nat)
| WLSender (q x : nat)          (* sender q = x.next() *)
| WLNext (q n : nat)            (* operation n is created from sender q and started *)
| WLBase (f : nat) (l : glabel). (* another step of frame f or of its operations *)

(** Events of a frame, and the calls on generators and senders *)
Inductive wevent :=
| WB (f : nat) (e : gevent)
| WCall (x f : nat) | WCtor (y x : nat) | WAssign (y x : nat) | WDestroy (x : nat) | WSender (q x : nat) | WNext (q n : nat).

(** if (h_) h_.destroy(), lines 66-67, 73-74 *)
Definition w_drop (fr : nat -> option gst) (h : option nat) : outcome (nat -> option gst) wevent :=
  match h with
  | None => Next fr []
  | Some f =>
      match fr f with
      | None => Fail UseAfterFree []
      | Some g => match g_step g GLDestroy with Next g' es => Next (upd fr f (Some g')) (map (WB f) es) | _ => Fail UseAfterFree [] end
      end
  end.

Definition w_step (s : wst) (l : wlabel) : outcome wst wevent :=
  let 'WS fr var snd := s in
  match l with
  | WLCall x f =>                               (* lines 22-24, 60 *)
      match var x, fr f with
      | None, None => Next (WS (upd fr f (Some g_init)) (upd var x (Some (Some f))) snd) [WCall x f]
      | _, _ => Disabled
      end
  | WLCtor y x =>                               (* line 62 *)
      match var y, var x with
      | None, Some h => Next (WS fr (upd (upd var x (Some None)) y (Some h)) snd) [WCtor y x]
      | _, _ => Disabled
      end
  | WLAssign y x =>                             (* lines 64-70 *)
      match var x with
      | None => Disabled
      | Some h =>
          let var1 := upd var x (Some None) in  (* line 65 *)
          match var1 y with
          | None => Disabled
          | Some old => match w_drop fr old with
                        | Next fr' es => Next (WS fr' (upd var1 y (Some h)) snd) (WAssign y x :: es)
                        | Disabled => Disabled
                        | Fail f es => Fail f (WAssign y x :: es)
                        end
          end
      end
  | WLDestroy x =>                              (* lines 72-75 *)
      match var x with
      | None => Disabled
      | Some h => match w_drop fr h with
                  | Next fr' es => Next (WS fr' (upd var x None) snd) (WDestroy x :: es)
                  | Disabled => Disabled
                  | Fail f es => Fail f (WDestroy x :: es)
                  end
      end
  | WLSender q x =>                             (* lines 111-113 *)
      match snd q, var x with
      | None, Some h => Next (WS fr var (upd snd q (Some h))) [WSender q x]
      | _, _ => Disabled
      end
  | WLNext q n =>                               (* lines 79-85, 106-108 *)
      match snd q with
      | None => Disabled
      | Some None => Fail NullDeref [WNext q n]
      | Some (Some f) =>
          match fr f with
          | None => Fail UseAfterFree [WNext q n]
          | Some g => match g_step g (GLNext n) with
                      | Next g' es => Next (WS (upd fr f (Some g')) var snd) (WNext q n :: map (WB f) es)
                      | Disabled => Disabled
                      | Fail e es => Fail e (WNext q n :: map (WB f) es)
                      end
          end
      end
  | WLBase f l =>
      match l, fr f with
      | GLNext _, _ | GLDestroy, _ | _, None => Disabled
      | _, Some g => match g_step g l with
                     | Next g' es => Next (WS (upd fr f (Some g')) var snd) (map (WB f) es)
                     | Disabled => Disabled
                     | Fail e es => Fail e (map (WB f) es)
                     end
      end
  end.
