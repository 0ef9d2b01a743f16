(** What is asked for of programs: how they use the member __error. *)
From Coq Require Import List Bool Arith.
From Verif Require Import PeepModel.
Import ListNotations.

(** Hooks run, and the error is taken back, only after it has been handed over to self; it is taken back once. The result:
    whether it is handed over afterwards; [None]: not used that way. After an exception, and in loops, it counts as not handed
    over. *)
Fixpoint bracketed1 (w : bool) (s : stmt) : option bool :=
  match s with
  | SPush => Some true
  | SPop => if w then Some false else None
  | SHook _ => if w then Some true else None
  | SIf _ a b => match bracketed w a, bracketed w b with Some x, Some y => Some (x && y) | _, _ => None end
  | SWhile _ b => match bracketed false b with Some _ => Some false | None => None end
  | SBlock b => bracketed w b
  | STry b c => match bracketed w b, bracketed_catches c with Some x, Some y => Some (x && y) | _, _ => None end
  | _ => Some w
  end
with bracketed (w : bool) (ss : stmts) : option bool :=
  match ss with Nil => Some w | Cons s r => match bracketed1 w s with Some x => bracketed x r | None => None end end
with bracketed_catches (c : catches) : option bool :=
  match c with
  | NoCatch => Some true
  | Catch _ b r => match bracketed false b, bracketed_catches r with Some x, Some y => Some (x && y) | _, _ => None end
  end.
(** the same for everything but self's __error *)
Definition same_but_error (a b : state) : Prop :=
  vars a = vars b /\ lerr a = lerr b /\ rest (me a) = rest (me b) /\ out (me a) = out (me b).

(** nowhere handed over to self *)
Fixpoint no_push1 (s : stmt) : bool :=
  match s with
  | SPush => false
  | SIf _ a b => no_push a && no_push b
  | SWhile _ b | SBlock b => no_push b
  | STry b c => no_push b && no_push_catches c
  | _ => true
  end
with no_push (ss : stmts) : bool := match ss with Nil => true | Cons s r => no_push1 s && no_push r end
with no_push_catches (c : catches) : bool := match c with NoCatch => true | Catch _ b r => no_push b && no_push_catches r end.
