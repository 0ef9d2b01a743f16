(* Specification for the passes value-propagation and move-last-uses. *)
From Coq Require Import List Arith Bool ZArith Lia.
From Verif Require Import OptModel OptSpec.
Import ListNotations.

(* There is a path. *)
Inductive leads (g : graph) (a : gnode) : gnode -> Prop :=
| leads_here : leads g a a
| leads_edge b c : leads g a b -> edge g b c -> leads g a c.

(* Programs for which value propagation is right: locals have an initializer, no assignment to a global, no plain copy
   of a global. *)
Definition plain_global (G : var -> bool) (e : expr) : Prop := match e with EName _ x => G x = true | _ => False end.
Definition vp_init (G : var -> bool) (i : option (var * expr)) : Prop :=
  match i with Some (_, e) => ~ plain_global G e | None => True end.
Definition vp_cond (G : var -> bool) (s : stmt) : Prop :=
  match s with
  | SAssign _ x e => G x = false /\ ~ plain_global G e
  | SDecl _ _ o => match o with Some e => ~ plain_global G e | None => False end
  | SIf i _ _ _ _ _ | SWhile i _ _ _ _ _ => vp_init G i
  | _ => True
  end.

(* The last two statements of a body. *)
Fixpoint last_two (ss : stmts) : option (stmt * stmt) :=
  match ss with
  | SCons s (SCons t SNil) => Some (s, t)
  | SCons _ r => last_two r
  | SNil => None
  end.
(* If the function ends with y = e; return x: y is not an inout parameter if it is x; and if it is not, e does not
   change x through an inout argument. *)
Definition ret_ok (f : func) : Prop :=
  match last_two (f_body f) with
  | Some (SAssign _ y e, SReturn _ (Some (EName _ x))) =>
      if x =? y then ~ In (x, true) (f_params f) else ~ In x (call_gen e)
  | _ => True
  end.
