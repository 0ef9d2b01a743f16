(** What is asked for of a function and its uses, for the pass not to change them. *)
From Coq Require Import List Bool Arith.
From Verif Require Import PfrModel.
Import ListNotations.

(** as checked by the compiler: the numbers of arguments and of elements of tuples *)
Definition well_typed (params : list name) (b : body) (uses : list use) (n : nat) : Prop :=
  NoDup params /\ (forall u, In u uses -> length (args u) = length params /\ length (lhs u) = n) /\ (forall es, In es (returns b) -> length es = n).
(** locals of the function *)
Fixpoint declared (b : body) : list name :=
  match b with
  | BRet _ => []
  | BLocal x _ k => x :: declared k
  | BSet _ _ k | BField _ _ k | BPrint _ k | BMember _ _ k => declared k
  | BIf _ a b => declared a ++ declared b
  end.
(** variables that are passed to methods by reference *)
Fixpoint by_reference (b : body) : list name :=
  match b with
  | BRet _ => []
  | BMember x true k => x :: by_reference k
  | BSet _ _ k | BLocal _ _ k | BField _ _ k | BPrint _ k | BMember _ false k => by_reference k
  | BIf _ a b => by_reference a ++ by_reference b
  end.
(** global variables that the function changes; [bound]: its parameters and locals *)
Fixpoint globals_set (bound : list name) (b : body) : list name :=
  match b with
  | BRet _ => []
  | BSet x _ k | BMember x true k => if existsb (Nat.eqb x) bound then globals_set bound k else x :: globals_set bound k
  | BLocal x _ k => globals_set (x :: bound) k
  | BField _ _ k | BPrint _ k | BMember _ false k => globals_set bound k
  | BIf _ a b => globals_set bound a ++ globals_set bound b
  end.
(** parameters are neither shadowed, nor passed by reference *)
Definition plain (params : list name) (b : body) : Prop := forall p, In p params -> ~ In p (declared b) /\ ~ In p (by_reference b).
(** variables only, each once, none of which is changed by the function *)
Definition plain_use (params : list name) (b : body) (u : use) : Prop :=
  exists xs, lhs u = map LVar xs /\ NoDup xs /\ forall x, In x xs -> ~ In x (globals_set params b).

Definition same_state (a b : state) : Prop := (forall x, vars a x = vars b x) /\ (forall f, fields a f = fields b f) /\ out a = out b.
(** after the pass *)
Definition new_call (params : list name) (b : body) (uses : list use) (n : nat) (u : use) (s : state) : state :=
  let pl := pruned params uses n b in call params (new_body pl b) (new_use pl params u) s.

(** A variable is used in an expression, *)
Inductive occurs (p : name) : expr -> Prop :=
| o_var : occurs p (EVar p)
| o_add1 a b : occurs p a -> occurs p (EAdd a b)
| o_add2 a b : occurs p b -> occurs p (EAdd a b).
(** and in a function, other than being returned itself, or being the argument of a method: it is assigned to, or it is used in
    an expression. *)
Inductive used (p : name) : body -> Prop :=
| u_returned es e : In e es -> e <> EVar p -> occurs p e -> used p (BRet es)
| u_assigned e k : used p (BSet p e k)
| u_set x e k : occurs p e \/ used p k -> used p (BSet x e k)
| u_local x e k : occurs p e \/ used p k -> used p (BLocal x e k)
| u_field f e k : occurs p e \/ used p k -> used p (BField f e k)
| u_print e k : occurs p e \/ used p k -> used p (BPrint e k)
| u_member x io k : used p k -> used p (BMember x io k)
| u_if e a b : occurs p e \/ used p a \/ used p b -> used p (BIf e a b).
