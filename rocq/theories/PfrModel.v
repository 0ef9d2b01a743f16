(** Model of hilti/toolchain/src/compiler/optimizer/passes/propagate-function-returns.cc: values that a function gets as
    parameters and only hands back in its returned tuple are neither returned nor assigned any more.

    One function that returns tuples, and all its uses. Variables have names; names are what the pass compares.
    Simplified: values are natural numbers; parameters are passed by value (in); bodies have no loops, and what follows an if
    is in both of its branches; functions that are called in a return statement of another one (tail calls, 226-277), uses in
    groupings, coercions of the returned tuple, and functions that may not be modified are left out. *)
From Coq Require Import List Bool Arith.
Import ListNotations.

Notation name := nat (only parsing).
Inductive expr := EConst (n : nat) | EVar (x : name) | EField (f : nat) | EAdd (a b : expr).
(** a function's body. [BMember x inout k]: a method of another struct is called with x; inout: it is passed by reference,
    and changed *)
Inductive body :=
| BRet (es : list expr) | BSet (x : name) (e : expr) (k : body) | BLocal (x : name) (e : expr) (k : body)
| BField (f : nat) (e : expr) (k : body) | BPrint (e : expr) (k : body) | BMember (x : name) (inout : bool) (k : body)
| BIf (e : expr) (a b : body).
(** the left side of a tuple assignment: variables, and members (of self) *)
Inductive lval := LVar (x : name) | LField (f : nat).
(** ( l1, .., ln ) = f(e1, .., em) *)
Record use := { lhs : list lval; args : list expr }.

(** ** What programs do *)
(** variables of the caller and global ones (that a local of the caller may have the name of a global variable is left out); members;
    output *)
Record state := { vars : name -> nat; fields : nat -> nat; out : list nat }.
Definition upd (h : nat -> nat) (x n : nat) : nat -> nat := fun y => if x =? y then n else h y.
Definition set_var (x n : nat) (s : state) : state := {| vars := upd (vars s) x n; fields := fields s; out := out s |}.
Definition set_field (f n : nat) (s : state) : state := {| vars := vars s; fields := upd (fields s) f n; out := out s |}.
Definition put (n : nat) (s : state) : state := {| vars := vars s; fields := fields s; out := out s ++ [n] |}.
(** parameters and locals of the function *)
Definition env := list (name * nat).
Fixpoint find (x : name) (v : env) : option nat := match v with [] => None | (y, n) :: r => if x =? y then Some n else find x r end.
Fixpoint change (x n : nat) (v : env) : env :=
  match v with [] => [] | (y, m) :: r => if x =? y then (y, n) :: r else (y, m) :: change x n r end.
Definition get (v : env) (s : state) (x : name) : nat := match find x v with Some n => n | None => vars s x end.
Fixpoint ev (v : env) (s : state) (e : expr) : nat :=
  match e with EConst n => n | EVar x => get v s x | EField f => fields s f | EAdd a b => ev v s a + ev v s b end.
(** assigning to a parameter or local, else to a global variable *)
Definition store (x n : nat) (v : env) (s : state) : env * state :=
  match find x v with Some _ => (change x n v, s) | None => (v, set_var x n s) end.
Fixpoint run (b : body) (v : env) (s : state) : list nat * state :=
  match b with
  | BRet es => (map (ev v s) es, s)
  | BSet x e k => let '(v', s') := store x (ev v s e) v s in run k v' s'
  | BLocal x e k => run k ((x, ev v s e) :: v) s
  | BField f e k => run k v (set_field f (ev v s e) s)
  | BPrint e k => run k v (put (ev v s e) s)
  | BMember x inout k =>
      let s1 := put (get v s x) s in
      if inout then let '(v', s') := store x (S (get v s x)) v s1 in run k v' s' else run k v s1
  | BIf e a b => if ev v s e =? 0 then run b v s else run a v s
  end.
Definition assign (l : lval) (n : nat) (s : state) : state := match l with LVar x => set_var x n s | LField f => set_field f n s end.
Fixpoint assign_all (l : list lval) (ns : list nat) (s : state) : state :=
  match l, ns with a :: l', n :: ns' => assign_all l' ns' (assign a n s) | _, _ => s end.
(** a call, and the assignment of what it returns *)
Definition call (params : list name) (b : body) (u : use) (s : state) : state :=
  let '(rs, s') := run b (combine params (map (ev [] s) (args u))) s in assign_all (lhs u) rs s'.

(** ** The pass *)
(** 17-29: arguments that are names; a later one replaces an earlier one *)
Fixpoint param_map (args : list expr) (params : list name) : list (name * name) :=
  match args, params with
  | a :: args', p :: params' => param_map args' params' ++ match a with EVar x => [(x, p)] | _ => [] end
  | _, _ => []
  end.
Definition mapped (m : list (name * name)) (x : name) : option name := find x m.
(** 153-158 *)
Definition entry (m : list (name * name)) (l : lval) : option name := match l with LVar x => mapped m x | LField _ => None end.
Definition same (a b : option name) : bool := match a, b with Some x, Some y => x =? y | None, None => true | _, _ => false end.
(** 160-163 *)
Fixpoint merge (r l : list (option name)) : list (option name) :=
  match r, l with
  | [], l => l
  | r, [] => r
  | a :: r', b :: l' => (if same a b then a else None) :: merge r' l'
  end.
Definition entries (params : list name) (u : use) : list (option name) := map (entry (param_map (args u) params)) (lhs u).
(** 167-181: those that occur more than once are removed *)
Definition count (p : name) (r : list (option name)) : nat := length (filter (same (Some p)) r).
Definition unique (r : list (option name)) : list (option name) :=
  map (fun o => match o with Some p => if 1 <? count p r then None else Some p | None => None end) r.
(** 117-184, 279-290 *)
Definition placements (params : list name) (uses : list use) (n : nat) : list (option name) :=
  let r := unique (fold_left (fun r u => merge r (entries params u)) uses []) in
  if length r =? n then r else [].

(** 318-351: names in the body, except for those directly in a returned tuple, and the arguments of method calls *)
Fixpoint names (e : expr) : list name := match e with EVar x => [x] | EAdd a b => names a ++ names b | _ => [] end.
Definition inner (e : expr) : list name := match e with EVar _ => [] | e => names e end.
Fixpoint other_names (b : body) : list name :=
  match b with
  | BRet es => flat_map inner es
  | BSet x e k => x :: names e ++ other_names k
  | BLocal _ e k | BField _ e k | BPrint e k => names e ++ other_names k
  | BMember _ _ k => other_names k
  | BIf e a b => names e ++ other_names a ++ other_names b
  end.
Definition prune_names (ns : list name) (pl : list (option name)) : list (option name) :=
  map (fun o => match o with Some p => if existsb (Nat.eqb p) ns then None else Some p | None => None end) pl.
(** 354-394: every tuple returned has the name there *)
Fixpoint returns (b : body) : list (list expr) :=
  match b with
  | BRet es => [es]
  | BSet _ _ k | BLocal _ _ k | BField _ _ k | BPrint _ k | BMember _ _ k => returns k
  | BIf _ a b => returns a ++ returns b
  end.
Fixpoint prune_return (es : list expr) (pl : list (option name)) : list (option name) :=
  match es, pl with
  | e :: es', o :: pl' =>
      match e, o with EVar x, Some p => if x =? p then o else None | _, _ => None end :: prune_return es' pl'
  | _, _ => pl
  end.
Definition pruned (params : list name) (uses : list use) (n : nat) (b : body) : list (option name) :=
  fold_left (fun pl es => prune_return es pl) (returns b) (prune_names (other_names b) (placements params uses n)).

(** 566-645: the tuples returned *)
Fixpoint keep_exprs (pl : list (option name)) (es : list expr) : list expr :=
  match pl, es with
  | o :: pl', e :: es' =>
      match e, o with
      | EVar x, Some p => if x =? p then keep_exprs pl' es' else e :: keep_exprs pl' es'
      | _, _ => e :: keep_exprs pl' es'
      end
  | _, es => es
  end.
Fixpoint new_body (pl : list (option name)) (b : body) : body :=
  match b with
  | BRet es => BRet (keep_exprs pl es)
  | BSet x e k => BSet x e (new_body pl k)
  | BLocal x e k => BLocal x e (new_body pl k)
  | BField f e k => BField f e (new_body pl k)
  | BPrint e k => BPrint e (new_body pl k)
  | BMember x i k => BMember x i (new_body pl k)
  | BIf e a b => BIf e (new_body pl a) (new_body pl b)
  end.
(** 473-475, 537-547: the left sides *)
Definition is_placed (pl : list (option name)) (p : name) : bool := existsb (same (Some p)) pl.
Definition keep_lval (pl : list (option name)) (m : list (name * name)) (l : lval) : bool :=
  match l with LVar x => match mapped m x with Some p => negb (is_placed pl p) | None => true end | LField _ => false end.
Definition new_use (pl : list (option name)) (params : list name) (u : use) : use :=
  {| lhs := if existsb (fun o => match o with Some _ => true | None => false end) pl
            then filter (keep_lval pl (param_map (args u) params)) (lhs u) else lhs u; args := args u |}.
