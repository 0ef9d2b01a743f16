(* Specification for the pass move-last-uses. *)
From Coq Require Import List Arith Bool ZArith Lia.
From Verif Require Import OptModel OptSpec.
Import ListNotations.

(* The value that x has behind node n is needed: some path leads to a node that reads x, and no node before that writes x. *)
Inductive needed_after (g : graph) (tr : gnode -> transfer) (x : var) : gnode -> Prop :=
| needed_read n m : edge g n m -> In x (t_read (tr m)) -> needed_after g tr x n
| needed_later n m : edge g n m -> ~ In x (t_write (tr m)) -> needed_after g tr x m -> needed_after g tr x n.

(* The labels of the names in a function. *)
Fixpoint uses (e : expr) : list lab :=
  match e with
  | EConst _ _ => []
  | EName l _ => [l]
  | EUn _ e | ENot e | EUpd _ _ e => uses e
  | EBin _ a b | EAnd a b | EOr a b => uses a ++ uses b
  | ECall _ a => uses_args a
  end
with uses_args (a : args) : list lab :=
  match a with
  | ANil => []
  | AIn e a => uses e ++ uses_args a
  | AInOut _ a => uses_args a
  end.
Definition uses_opt (o : option expr) : list lab := match o with Some e => uses e | None => [] end.
Definition uses_init (i : option (var * expr)) : list lab := match i with Some (_, e) => uses e | None => [] end.
Fixpoint uses_stmt (s : stmt) : list lab :=
  match s with
  | SAssign _ _ e | SExpr _ e | SAssert _ e => uses e
  | SDecl _ _ o | SThrow _ o | SReturn _ o => uses_opt o
  | SIf i _ c t _ f => uses_init i ++ uses c ++ uses_stmts t ++ uses_stmts f
  | SWhile i _ c b _ e => uses_init i ++ uses c ++ uses_stmts b ++ uses_stmts e
  | STry b c => uses_stmts b ++ uses_stmts c
  | SBlock b => uses_stmts b
  | SBreak | SContinue => []
  end
with uses_stmts (ss : stmts) : list lab :=
  match ss with SNil => [] | SCons s r => uses_stmt s ++ uses_stmts r end.

(* The names in an expression with their labels (not those of arguments for inout parameters and of updated variables). *)
Fixpoint occ (e : expr) : list (lab * var) :=
  match e with
  | EConst _ _ => []
  | EName l x => [(l, x)]
  | EUn _ e | ENot e | EUpd _ _ e => occ e
  | EBin _ a b | EAnd a b | EOr a b => occ a ++ occ b
  | ECall _ a => occ_args a
  end
with occ_args (a : args) : list (lab * var) :=
  match a with ANil => [] | AIn e a => occ e ++ occ_args a | AInOut _ a => occ_args a end.
(* The expressions of a body, the node each belongs to, and whether it is moved from at all: what is returned is not. *)
Definition exinfo := (gnode * expr * bool)%type.
Definition ex_opt (n : gnode) (o : option expr) (b : bool) : list exinfo := match o with Some e => [(n, e, b)] | None => [] end.
Definition ex_init (i : option (var * expr)) : list exinfo := match i with Some (x, e) => [(NDecl x, e, true)] | None => [] end.
Fixpoint ex_stmt (s : stmt) : list exinfo :=
  match s with
  | SAssign l _ e | SExpr l e | SAssert l e => [(NStmt l, e, true)]
  | SDecl _ x o => ex_opt (NDecl x) o true
  | SThrow l o => ex_opt (NStmt l) o true
  | SReturn l o => ex_opt (NStmt l) o false
  | SIf i l c t _ f => ex_init i ++ (NStmt l, c, true) :: ex_stmts t ++ ex_stmts f
  | SWhile i l c b _ e => ex_init i ++ (NStmt l, c, true) :: ex_stmts b ++ ex_stmts e
  | STry b c => ex_stmts b ++ ex_stmts c
  | SBlock b => ex_stmts b
  | SBreak | SContinue => []
  end
with ex_stmts (ss : stmts) : list exinfo :=
  match ss with SNil => [] | SCons s r => ex_stmt s ++ ex_stmts r end.

(* A variable given for an inout parameter occurs only once in the expression. *)
Definition alone (e : expr) : Prop := forall x, In x (call_gen e) -> count_occ Nat.eq_dec (names e) x = 1.
Definition alone_opt (o : option expr) : Prop := match o with Some e => alone e | None => True end.
Definition alone_init (i : option (var * expr)) : Prop := match i with Some (_, e) => alone e | None => True end.
Definition mv_cond (s : stmt) : Prop :=
  match s with
  | SAssign _ _ e | SExpr _ e | SAssert _ e => alone e
  | SDecl _ _ o | SThrow _ o => alone_opt o
  | SIf i _ c _ _ _ | SWhile i _ c _ _ _ => alone_init i /\ alone c
  | _ => True
  end.

(* The language with some names turned into moves, which leave anything in the variables. *)
Definition with_moves {W} (L : lang W) (ls : list lab) (left : var -> Z) : lang W := {|
  op1 := op1 W L; op2 := op2 W L; call := call W L; dflt := dflt W L; glob := glob W L;
  moved := fun l => mem l ls; poison := left |}.
