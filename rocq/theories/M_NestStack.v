(** The call stack of nestings of the algorithms, algorithm.hpp.

    The stack of the thread that executes the library, for nestings without when_all and race_and_cancel, on top of the steps of M_Nest.v.  Counted are the frames
    of member functions of operations and receivers: start(), set_value(), loop_() and do_step().  Calls that return before the next visible action (user functions,
    constructors, the function objects of execution.hpp) are not counted.  There are no tail calls: loop_() and do_step() use the result of start_inline()
    (lines 275, 540, 560); other calls are counted in the same way, although a compiler may turn some of them into jumps. *)
From Coq Require Import List Arith Bool.
From Verif Require Import Lts M_Nest.
Import ListNotations.

(** Frames that start() pushes, up to the first visible action *)
Fixpoint sfr (x : ex) : nat :=
  match x with
  | XInv _ | XLeaf _ | XIte _ _ _ | XLet _ _ _ => 1     (* start(): lines 43, 196, 466 *)
  | XTrans y _ => sfr y                                 (* transform has no operation of its own, lines 138-141, 157-160 *)
  | XRep _ _ _ => 2                                     (* start(), loop_(): lines 261, 268 *)
  | XSeq y _ => 2 + sfr y                               (* start(), do_step(): lines 522, 532 *)
  | XAll _ _ | XRace _ _ _ => 0                         (* not modelled here *)
  end.
(** Frames that a step pushes; [e]: as in [o_step] *)
Fixpoint push (o : op) (e : option nat) : nat :=
  match o with
  | ONew x => sfr x
  | OFn _ k => match k, e with
               | KIte a b, Some v => sfr (if v =? 0 then b else a)                           (* lines 201, 206 *)
               | KRepF _ _ body, Some v => sfr (body v)                                      (* line 273 *)
               | KLetF body, Some v => sfr (body v)                                          (* line 469 *)
               | _, _ => 0
               end
  | OTrans _ o' => match o' with OSet _ => 1 | _ => push o' e end                            (* set_value(): lines 88, 111 *)
  | ORep _ _ _ o' => match o' with OSet _ => 2 | _ => push o' e end                          (* set_value(), loop_(): lines 285, 288 *)
  | OSeq l o' => match o' with
                 | OSet _ => match l with [] => 1 | x :: _ => 2 + sfr x end                  (* set_value(), do_step(): lines 577, 585, 560; 588, 601 *)
                 | _ => push o' e
                 end
  | OSet _ => 1                                                                              (* set_value() of the receiver of the client *)
  | _ => 0
  end.
(** Frames that a step pops: loop_() returns true, lines 262, 288 *)
Fixpoint pop (o : op) (e : option nat) : nat :=
  match o with
  | OFn _ (KRepC _ _ _) => match e with Some 0 => 1 | _ => 0 end
  | OTrans _ o' | ORep _ _ _ o' | OSeq _ o' => pop o' e
  | _ => 0
  end.
(** A leaf operation is running. *)
Fixpoint waits (o : op) : bool :=
  match o with OLeaf _ => true | OTrans _ o' | ORep _ _ _ o' | OSeq _ o' => waits o' | _ => false end.

Record hst := MkH { h_op : op; h_n : nat; h_on : bool }.  (* frames; whether the library is on the stack *)
Definition h_init (x : ex) : hst := MkH (n_init x) 0 false.
Inductive hlabel :=
| HL (l : nlabel)        (* a step of M_Nest.v; a leaf operation completes inside of its start(), or, after [HReturn], later with an empty stack *)
| HReturn.               (* start() of the leaf operation returns; start_inline() is false, so that all calls return, lines 274-275, 540, 560 *)
Definition env_of (l : nlabel) : option nat := match l with NLEnv _ v => Some v | _ => None end.
Definition h_step (s : hst) (l : hlabel) : outcome hst nevent :=
  match l with
  | HL l' =>
      match n_step (h_op s) l' with
      | Next o es => Next (MkH o ((if h_on s then h_n s else 1) + push (h_op s) (env_of l') - pop (h_op s) (env_of l')) true) es
      | Disabled => Disabled
      | Fail f es => Fail f es
      end
  | HReturn => if h_on s && waits (h_op s) then Next (MkH (h_op s) 0 false) [] else Disabled
  end.
