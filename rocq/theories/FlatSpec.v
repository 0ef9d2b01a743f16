(** What it means for names to be resolved correctly, and for a local to capture a name. *)
From Coq Require Import List Bool Arith.
From Verif Require Import FlatModel.
Import ListNotations.

(** ** Resolution: a name refers to the innermost local of that name declared before *)
Definition scope := list (name * decl).
Inductive refers : name -> decl -> scope -> Prop :=
| refers_here x d sc : refers x d ((x, d) :: sc)
| refers_there x d y d' sc : x <> y -> refers x d sc -> refers x d ((y, d') :: sc).

(** uses of variables, with their declarations *)
Fixpoint evars (e : expr) : list (name * decl) :=
  match e with EConst _ => [] | EVar x d => [(x, d)] | EAdd a b | ELess a b => evars a ++ evars b end.
Fixpoint uses1 (s : stmt) : list (name * decl) :=
  match s with
  | SLocal _ _ e | SPrint e => evars e
  | SAssign x d e => (x, d) :: evars e
  | SIf e a b => evars e ++ uses a ++ uses b
  | SWhile e b => evars e ++ uses b
  | SBlock b => uses b
  | _ => []
  end
with uses (ss : stmts) : list (name * decl) := match ss with Nil => [] | Cons s r => uses1 s ++ uses r end.

Definition opened (s : stmt) (sc : scope) : scope := match s with SLocal x d _ => (x, d) :: sc | _ => sc end.
(** every name refers to the declaration recorded with it; no initialiser uses the variable itself *)
Fixpoint resolved1 (s : stmt) (sc : scope) : Prop :=
  match s with
  | SLocal x d e => (forall y d', In (y, d') (evars e) -> refers y d' ((x, d) :: sc) /\ d' <> d)
  | SPrint e => forall y d', In (y, d') (evars e) -> refers y d' sc
  | SAssign x d e => refers x d sc /\ forall y d', In (y, d') (evars e) -> refers y d' sc
  | SIf e a b => (forall y d', In (y, d') (evars e) -> refers y d' sc) /\ resolved a sc /\ resolved b sc
  | SWhile e b => (forall y d', In (y, d') (evars e) -> refers y d' sc) /\ resolved b sc
  | SBlock b => resolved b sc
  | SBreak | SReturn => True
  end
with resolved (ss : stmts) (sc : scope) : Prop :=
  match ss with Nil => True | Cons s r => resolved1 s sc /\ resolved r (opened s sc) end.

(** a function body, with what is around it: parameters *)
Definition good (sc : scope) (p : stmts) : Prop :=
  resolved p sc /\ NoDup (map snd sc ++ map snd (locals p)).

(** ** Capture: folding block [b], renamed by [m], into the block [pre], [b], [post] *)
(** a variable from outside of both blocks that has the new name of a local of [b], and is
    - used after [b], while the local is one of [b] itself; or
    - used in [b], while the local has been renamed *)
Definition captured (pre b post : stmts) (m : list (decl * name)) (x : name) : Prop :=
  exists d, ~ In d (map snd (locals (app_s pre (Cons (SBlock b) post))))
    /\ ((In (x, d) (uses post) /\ In x (map fst (direct (ren m b))))
        \/ (In (x, d) (uses b) /\ exists y d', In (y, d') (locals b) /\ new_name m d' y = x /\ y <> x)).
Definition no_capture (pre b post : stmts) (_ : list name) (m : list (decl * name)) : Prop := forall x, ~ captured pre b post m x.
(** the scope of the outer block knows all variables from outside of it: as at the level of the function, where that scope has
    the parameters *)
Definition knows_outer (pre b post : stmts) (scope : list name) (_ : list (decl * name)) : Prop :=
  forall x d, In (x, d) (uses b ++ uses post) -> ~ In d (map snd (locals (app_s pre (Cons (SBlock b) post)))) -> In x scope.
(** no two variables have names that differ in the underscores at their ends only *)
Definition stems_distinct (l : list (name * decl)) : Prop := forall x d y e, In (x, d) l -> In (y, e) l -> fst x = fst y -> d = e.
Definition anything (_ _ _ : stmts) (_ : list name) (_ : list (decl * name)) : Prop := True.

(** ** What is left to do *)
Fixpoint flat1 (s : stmt) : Prop :=
  match s with SIf _ a b => flat a /\ flat b | SWhile _ b => flat b | SBlock b => False | _ => True end
with flat (ss : stmts) : Prop := match ss with Nil => True | Cons s r => flat1 s /\ flat r end.
Fixpoint blocks1 (s : stmt) : nat :=
  match s with SIf _ a b => blocks a + blocks b | SWhile _ b => blocks b | SBlock b => S (blocks b) | _ => 0 end
with blocks (ss : stmts) : nat := match ss with Nil => 0 | Cons s r => blocks1 s + blocks r end.

(** what can be observed: how the function ends, and its output; [v]: the values of the parameters *)
Definition observe (fuel : nat) (p : stmts) (v : env) : outcome * list nat :=
  let '(o, (_, out)) := run fuel p (v, []) in (o, out).
