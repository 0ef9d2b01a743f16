(** Model of hilti/toolchain/src/compiler/optimizer/passes/flatten-blocks.cc: blocks inside of blocks are folded into the
    outer block; locals are renamed where their names clash.

    The language is a cut of HILTI: numbers, locals, output, if, while, blocks, break, return. A use of a local has a name,
    and the declaration that name was resolved to; generated C++ code has the names only
    (codegen/expressions.cc: 138-255, [cxx::ID(n->id())] for locals and parameters).

    Simplified: values are natural numbers, so that the end of life of a local (references) is not visible: the assignments of
    defaults that the pass adds at the end of a block are modelled, for any of the block's locals, but which of them get one
    is left open; blocks of modules, which the pass skips, are not there; the order in which blocks are visited is left open. *)
From Coq Require Import List Bool Arith.
Import ListNotations.

(** an ID: what is before the underscores at its end (by number), and the number of these *)
Definition name := (nat * nat)%type.
Definition name_eqb (x y : name) : bool := (fst x =? fst y) && (snd x =? snd y).
(** 83: ID(id.str() + "_") *)
Definition underscored (x : name) : name := (fst x, S (snd x)).
(** a declaration node *)
Definition decl := nat.

Inductive expr := EConst (n : nat) | EVar (x : name) (d : decl) | EAdd (a b : expr) | ELess (a b : expr).
Inductive stmt :=
| SLocal (x : name) (d : decl) (e : expr) | SAssign (x : name) (d : decl) (e : expr) | SPrint (e : expr)
| SIf (e : expr) (a b : stmts) | SWhile (e : expr) (b : stmts) | SBlock (b : stmts) | SBreak | SReturn
with stmts := Nil | Cons (s : stmt) (r : stmts).

Fixpoint app_s (a b : stmts) : stmts := match a with Nil => b | Cons s r => Cons s (app_s r b) end.

(** ** What programs do: by names *)
Inductive outcome := Nrm | Brk | Ret | More.   (* [More]: not finished within the given number of iterations of a loop *)
(** the variables that exist, innermost and latest first, and the output *)
Definition env := list (name * nat).
Fixpoint value (x : name) (v : env) : nat :=
  match v with [] => 0 | (y, n) :: r => if name_eqb x y then n else value x r end.
Fixpoint assign (x : name) (n : nat) (v : env) : env :=
  match v with [] => [] | (y, m) :: r => if name_eqb x y then (y, n) :: r else (y, m) :: assign x n r end.
(** leaving a block: what was there before it is left *)
Definition leave (n : nat) (v : env) : env := skipn (length v - n) v.

Fixpoint ev (v : env) (e : expr) : nat :=
  match e with
  | EConst n => n
  | EVar x _ => value x v
  | EAdd a b => ev v a + ev v b
  | ELess a b => if ev v a <? ev v b then 1 else 0
  end.

(** while, at most [fuel] iterations *)
Fixpoint while_ {S : Type} (cond : S -> bool) (body : S -> outcome * S) (fuel : nat) (s : S) : outcome * S :=
  match fuel with
  | O => (More, s)
  | Datatypes.S fuel' =>
      if cond s then
        match body s with
        | (Nrm, s') => while_ cond body fuel' s'
        | (Brk, s') => (Nrm, s')
        | r => r
        end
      else (Nrm, s)
  end.

Definition state := (env * list nat)%type.
(** a block *)
Definition block_ (run : state -> outcome * state) (s : state) : outcome * state :=
  let '(o, (v, out)) := run s in (o, (leave (length (fst s)) v, out)).

Fixpoint run1 (fuel : nat) (s : stmt) (st : state) {struct s} : outcome * state :=
  let '(v, out) := st in
  match s with
  (* the new variable is there already in its initialiser, as in C++ *)
  | SLocal x _ e => (Nrm, ((x, ev ((x, 0) :: v) e) :: v, out))
  | SAssign x _ e => (Nrm, (assign x (ev v e) v, out))
  | SPrint e => (Nrm, (v, out ++ [ev v e]))
  | SIf e a b => if ev v e =? 0 then block_ (run fuel b) st else block_ (run fuel a) st
  | SWhile e b => while_ (fun st => negb (ev (fst st) e =? 0)) (block_ (run fuel b)) fuel st
  | SBlock b => block_ (run fuel b) st
  | SBreak => (Brk, st)
  | SReturn => (Ret, st)
  end
with run (fuel : nat) (ss : stmts) (st : state) {struct ss} : outcome * state :=
  match ss with
  | Nil => (Nrm, st)
  | Cons s r => match run1 fuel s st with (Nrm, st') => run fuel r st' | x => x end
  end.

(** ** The pass *)

(** 25-48: the locals declared inside of a block, at any depth *)
Fixpoint locals1 (s : stmt) : list (name * decl) :=
  match s with
  | SLocal x d _ => [(x, d)]
  | SIf _ a b => locals a ++ locals b
  | SWhile _ b | SBlock b => locals b
  | _ => []
  end
with locals (ss : stmts) : list (name * decl) := match ss with Nil => [] | Cons s r => locals1 s ++ locals r end.
(** those of the block itself *)
Fixpoint direct (ss : stmts) : list (name * decl) :=
  match ss with Nil => [] | Cons (SLocal x d _) r => (x, d) :: direct r | Cons _ r => direct r end.

(** 62-64: names introduced so far, with their declarations *)
Definition used_ids := list (name * decl).
Fixpoint used_as (u : used_ids) (x : name) : option decl :=
  match u with [] => None | (y, d) :: r => if name_eqb x y then Some d else used_as r x end.
Definition has (scope : list name) (x : name) : bool := existsb (name_eqb x) scope.
(** 82: (used.contains(id) && used[id] != decl) || parent->getOrCreateScope()->has(id) *)
Definition clash (u : used_ids) (scope : list name) (d : decl) (x : name) : bool :=
  match used_as u x with Some d' => negb (d' =? d) | None => false end || has scope x.
(** 81-83; after so many attempts there is no clash (C86_names) *)
Fixpoint pick (n : nat) (u : used_ids) (scope : list name) (d : decl) (x : name) : name :=
  match n with O => x | S n' => if clash u scope d x then pick n' u scope d (underscored x) else x end.
(** 85: used.emplace(id, decl), which keeps what is there *)
Definition emplace (u : used_ids) (x : name) (d : decl) : used_ids := match used_as u x with Some _ => u | None => u ++ [(x, d)] end.
(** 79-98: the new names *)
Fixpoint rename_all (scope : list name) (ds : list (name * decl)) (u : used_ids) : list (decl * name) * used_ids :=
  match ds with
  | [] => ([], u)
  | (x, d) :: r =>
      let y := pick (S (length u + length scope)) u scope d x in
      let '(m, u') := rename_all scope r (emplace u y d) in ((d, y) :: m, u')
  end.

(** applying them: to declarations and the names that refer to them *)
Fixpoint new_name (m : list (decl * name)) (d : decl) (x : name) : name :=
  match m with [] => x | (d', y) :: r => if d =? d' then y else new_name r d x end.
Fixpoint ren_e (m : list (decl * name)) (e : expr) : expr :=
  match e with
  | EConst n => EConst n
  | EVar x d => EVar (new_name m d x) d
  | EAdd a b => EAdd (ren_e m a) (ren_e m b)
  | ELess a b => ELess (ren_e m a) (ren_e m b)
  end.
Fixpoint ren1 (m : list (decl * name)) (s : stmt) : stmt :=
  match s with
  | SLocal x d e => SLocal (new_name m d x) d (ren_e m e)
  | SAssign x d e => SAssign (new_name m d x) d (ren_e m e)
  | SPrint e => SPrint (ren_e m e)
  | SIf e a b => SIf (ren_e m e) (ren m a) (ren m b)
  | SWhile e b => SWhile (ren_e m e) (ren m b)
  | SBlock b => SBlock (ren m b)
  | SBreak => SBreak
  | SReturn => SReturn
  end
with ren (m : list (decl * name)) (ss : stmts) : stmts := match ss with Nil => Nil | Cons s r => Cons (ren1 m s) (ren m r) end.

(** 117-133: locals of the block itself (not of bodies inside of it) set to their defaults at its end *)
Fixpoint resets (l : list (name * decl)) : stmts :=
  match l with [] => Nil | (x, d) :: r => Cons (SAssign x d (EConst 0)) (resets r) end.

(** 66-151: one block [b] inside of another, which is [pre], [b], [post].
    [scope]: the names in the scope of the outer block. That was built before the pass: locals that got into the outer block,
    or were renamed, since then are among the names introduced.
    [ds]: the locals of [b], in the order of the identities of their nodes. *)
Inductive flatten_one (u : used_ids) (pre b post : stmts) (u' : used_ids) : stmts -> list name -> list (decl * name) -> Prop :=
| flatten_block (scope : list name) (ds rs : list (name * decl)) (m : list (decl * name)) :
    (forall x d, In (x, d) (direct pre ++ direct post) -> In x scope \/ used_as u x = Some d) ->
    (forall p, In p ds <-> In p (locals b)) -> NoDup ds ->
    rename_all scope ds u = (m, u') ->
    incl rs (direct (ren m b)) ->
    flatten_one u pre b post u' (app_s pre (app_s (app_s (ren m b) (resets rs)) post)) scope m.

(** somewhere in a function. [ok]: what is asked for of the block that is folded (used in theorems). *)
Section step.
  Context (ok : stmts -> stmts -> stmts -> list name -> list (decl * name) -> Prop).
  Inductive step1 (u : used_ids) : stmt -> used_ids -> stmt -> Prop :=
  | in_then e a b u' a' : step u a u' a' -> step1 u (SIf e a b) u' (SIf e a' b)
  | in_else e a b u' b' : step u b u' b' -> step1 u (SIf e a b) u' (SIf e a b')
  | in_while e b u' b' : step u b u' b' -> step1 u (SWhile e b) u' (SWhile e b')
  | in_block b u' b' : step u b u' b' -> step1 u (SBlock b) u' (SBlock b')
  with step (u : used_ids) : stmts -> used_ids -> stmts -> Prop :=
  | here pre b post u' p' scope m : flatten_one u pre b post u' p' scope m -> ok pre b post scope m -> step u (app_s pre (Cons (SBlock b) post)) u' p'
  | inside pre s post u' s' : step1 u s u' s' -> step u (app_s pre (Cons s post)) u' (app_s pre (Cons s' post)).
  (** the pass: one block after the other, until there is nothing left to do *)
  Inductive steps : used_ids -> stmts -> used_ids -> stmts -> Prop :=
  | no_step u p : steps u p u p
  | a_step u p u1 p1 u2 p2 : step u p u1 p1 -> steps u1 p1 u2 p2 -> steps u p u2 p2
  (* 153: the pass is run again as long as it changes something, after resolving names anew *)
  | new_run u p u2 p2 : steps [] p u2 p2 -> steps u p u2 p2.
End step.
