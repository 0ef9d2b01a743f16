(** Model of hilti/toolchain/src/compiler/optimizer/passes/peephole.cc: small simplifications of the final program.

    Simplified: values are natural numbers; a grouping's local that has no initialiser has the initialiser 0 (its default); the
    order in which simplifications are made is left open. What counts as free of side effects (cfg.cc: 1292-1324) is judged
    for the whole statement there, where the grouping's local is itself written (cfg.cc: 1005-1006); so what is left for groupings
    are constants, names, and coercions of these. *)
From Coq Require Import List Bool Arith.
Import ListNotations.

Inductive expr :=
| EConst (n : nat) | EVar (x : nat) | EAdd (a b : expr) | EDiv (a b : expr)   (* throws if the divisor is 0 *)
| ECall (e : expr)                                                            (* prints, and returns, its argument *)
| ECoerced (e : expr) | EMove (e : expr)
| ESeq (a b : expr)                                                           (* the expressions of a grouping: a, then b *)
| EGroup (x : nat) (init : expr) (body : expr).                               (* ( { local x = init; } body ) *)
Inductive stmt :=
| SExpr (e : expr) | SAssign (x : nat) (e : expr)
| SVoid                          (* default<void> *)
| SPush | SPop                   (* peephole.cc: 26-113; parser-builder.cc: 3024-3061: ( *self ).__error = __error;   __error = ( *self ).__error; *)
| SHook (h : nat)                (* a method of self *)
| SIf (e : expr) (a b : stmts) | SWhile (e : expr) (b : stmts) | SBlock (b : stmts)
| STry (b : stmts) (c : catches) | SThrow (e : expr) | SRethrow | SReturn
with stmts := Nil | Cons (s : stmt) (r : stmts)
(** catches of one kind of exception, or of all *)
with catches := NoCatch | Catch (t : option nat) (b : stmts) (r : catches).
Fixpoint app_s (a b : stmts) : stmts := match a with Nil => b | Cons s r => Cons s (app_s r b) end.

(** ** What programs do (the language's semantics; no lines in /repo) *)
Inductive res := Val (n : nat) | Exn (n : nat).
Definition upd (v : nat -> nat) (x n : nat) : nat -> nat := fun y => if x =? y then n else v y.
Definition division_by_zero : nat := 0.
Fixpoint ev (v : nat -> nat) (o : list nat) (e : expr) : res * list nat :=
  let both a b f :=
    match ev v o a with
    | (Val n, o1) => match ev v o1 b with (Val m, o2) => (f n m, o2) | r => r end
    | r => r
    end in
  match e with
  | EConst n => (Val n, o)
  | EVar x => (Val (v x), o)
  | EAdd a b => both a b (fun n m => Val (n + m))
  | EDiv a b => both a b (fun n m => if m =? 0 then Exn division_by_zero else Val (n / m))
  | ECall e => match ev v o e with (Val n, o1) => (Val n, o1 ++ [n]) | r => r end
  | ECoerced e | EMove e => ev v o e
  | ESeq a b => both a b (fun _ m => Val m)
  | EGroup x init b => match ev v o init with (Val n, o1) => ev (upd v x n) o1 b | r => r end
  end.

(** self: its member __error, and all the rest; output *)
Record self := { err : nat; rest : nat -> nat; out : list nat }.
(** [lerr]: the local variable __error *)
Record state := { vars : nat -> nat; lerr : nat; me : self }.
Inductive outcome := Nrm | Ret | Thrown (n : nat) | More.   (* [More]: not finished within the given number of iterations *)
Definition with_out (s : state) (o : list nat) : state := {| vars := vars s; lerr := lerr s; me := {| err := err (me s); rest := rest (me s); out := o |} |}.

Section run.
  (** hooks may do anything to self, and throw *)
  Context (hook : nat -> self -> option nat * self).
  Definition eval (e : expr) (s : state) : res * state := let '(r, o) := ev (vars s) (out (me s)) e in (r, with_out s o).
  Fixpoint loop (cond : state -> res * state) (body : state -> outcome * state) (fuel : nat) (s : state) : outcome * state :=
    match fuel with
    | O => (More, s)
    | S fuel' =>
        match cond s with
        | (Exn n, s1) => (Thrown n, s1)
        | (Val 0, s1) => (Nrm, s1)
        | (Val _, s1) => match body s1 with (Nrm, s2) => loop cond body fuel' s2 | r => r end
        end
    end.
  (** [cur]: the exception being handled *)
  Fixpoint run1 (fuel : nat) (cur : nat) (s : stmt) (st : state) {struct s} : outcome * state :=
    match s with
    | SExpr e => match eval e st with (Val _, st1) => (Nrm, st1) | (Exn n, st1) => (Thrown n, st1) end
    | SAssign x e =>
        match eval e st with
        | (Val n, st1) => (Nrm, {| vars := upd (vars st1) x n; lerr := lerr st1; me := me st1 |})
        | (Exn n, st1) => (Thrown n, st1)
        end
    | SVoid => (Nrm, st)
    | SPush => (Nrm, {| vars := vars st; lerr := lerr st; me := {| err := lerr st; rest := rest (me st); out := out (me st) |} |})
    | SPop => (Nrm, {| vars := vars st; lerr := err (me st); me := me st |})
    | SHook h =>
        let '(r, m) := hook h (me st) in
        (match r with None => Nrm | Some n => Thrown n end, {| vars := vars st; lerr := lerr st; me := m |})
    | SIf e a b =>
        match eval e st with
        | (Val 0, st1) => run fuel cur b st1
        | (Val _, st1) => run fuel cur a st1
        | (Exn n, st1) => (Thrown n, st1)
        end
    | SWhile e b => loop (eval e) (run fuel cur b) fuel st
    | SBlock b => run fuel cur b st
    | STry b c => match run fuel cur b st with (Thrown n, st1) => handle fuel n c st1 | r => r end
    | SThrow e => match eval e st with (Val n, st1) => (Thrown n, st1) | (Exn n, st1) => (Thrown n, st1) end
    | SRethrow => (Thrown cur, st)
    | SReturn => (Ret, st)
    end
  with run (fuel : nat) (cur : nat) (ss : stmts) (st : state) {struct ss} : outcome * state :=
    match ss with
    | Nil => (Nrm, st)
    | Cons s r => match run1 fuel cur s st with (Nrm, st1) => run fuel cur r st1 | x => x end
    end
  (* the first catch that fits *)
  with handle (fuel : nat) (n : nat) (c : catches) (st : state) {struct c} : outcome * state :=
    match c with
    | NoCatch => (Thrown n, st)
    | Catch t b r =>
        if match t with None => true | Some k => k =? n end then run fuel n b st else handle fuel n r st
    end.
End run.

(** ** The pass *)
(** cfg.cc: 1292-1324, as far as it applies to parts of groupings *)
Fixpoint trivial (e : expr) : bool := match e with EConst _ | EVar _ => true | ECoerced e => trivial e | _ => false end.
Fixpoint all_trivial (e : expr) : bool := match e with ESeq a b => trivial a && all_trivial b | e => trivial e end.
(** 123-137: NameReplacer *)
Fixpoint replace (x : nat) (by_ : expr) (e : expr) : expr :=
  match e with
  | EVar y => if x =? y then by_ else EVar y
  | ECoerced e => ECoerced (replace x by_ e)
  | ESeq a b => ESeq (replace x by_ a) (replace x by_ b)
  | e => e   (* not in trivial expressions *)
  end.
(** 139-164, anywhere in an expression *)
Inductive peep_e : expr -> expr -> Prop :=
| pe_group x init b : trivial init = true -> all_trivial b = true -> peep_e (EGroup x init b) (replace x init b)
| pe_add1 a a' b : peep_e a a' -> peep_e (EAdd a b) (EAdd a' b)
| pe_add2 a b b' : peep_e b b' -> peep_e (EAdd a b) (EAdd a b')
| pe_div1 a a' b : peep_e a a' -> peep_e (EDiv a b) (EDiv a' b)
| pe_div2 a b b' : peep_e b b' -> peep_e (EDiv a b) (EDiv a b')
| pe_call e e' : peep_e e e' -> peep_e (ECall e) (ECall e')
| pe_coerced e e' : peep_e e e' -> peep_e (ECoerced e) (ECoerced e')
| pe_move e e' : peep_e e e' -> peep_e (EMove e) (EMove e')
| pe_seq1 a a' b : peep_e a a' -> peep_e (ESeq a b) (ESeq a' b)
| pe_seq2 a b b' : peep_e b b' -> peep_e (ESeq a b) (ESeq a b')
| pe_init x i i' b : peep_e i i' -> peep_e (EGroup x i b) (EGroup x i' b)
| pe_body x i b b' : peep_e b b' -> peep_e (EGroup x i b) (EGroup x i b').

(** anywhere in a function *)
Inductive peep1 : stmt -> stmt -> Prop :=
| p_move e : peep1 (SExpr (EMove e)) (SExpr e)                                    (* 166-171 *)
| p_try b t : peep1 (STry b (Catch t (Cons SRethrow Nil) NoCatch)) (SBlock b)     (* 206-217 *)
| p_expr e e' : peep_e e e' -> peep1 (SExpr e) (SExpr e')
| p_assign x e e' : peep_e e e' -> peep1 (SAssign x e) (SAssign x e')
| p_throw e e' : peep_e e e' -> peep1 (SThrow e) (SThrow e')
| p_cond e e' a b : peep_e e e' -> peep1 (SIf e a b) (SIf e' a b)
| p_wcond e e' b : peep_e e e' -> peep1 (SWhile e b) (SWhile e' b)
| p_then e a a' b : peep a a' -> peep1 (SIf e a b) (SIf e a' b)
| p_else e a b b' : peep b b' -> peep1 (SIf e a b) (SIf e a b')
| p_while e b b' : peep b b' -> peep1 (SWhile e b) (SWhile e b')
| p_block b b' : peep b b' -> peep1 (SBlock b) (SBlock b')
| p_body b b' c : peep b b' -> peep1 (STry b c) (STry b' c)
| p_catch b c c' : peepc c c' -> peep1 (STry b c) (STry b c')
with peep : stmts -> stmts -> Prop :=
| p_void r : peep (Cons SVoid r) r                                                (* 173-178 *)
| p_pair r : peep (Cons SPush (Cons SPop r)) r                                    (* 180-203 *)
| p_pair_void r : peep (Cons SPush (Cons SVoid (Cons SPop r))) (Cons SVoid r)     (* 193-195 *)
| p_head s s' r : peep1 s s' -> peep (Cons s r) (Cons s' r)
| p_tail s r r' : peep r r' -> peep (Cons s r) (Cons s r')
with peepc : catches -> catches -> Prop :=
| p_handler t b b' r : peep b b' -> peepc (Catch t b r) (Catch t b' r)
| p_other t b r r' : peepc r r' -> peepc (Catch t b r) (Catch t b r').
(** 221: until there is nothing left to do *)
Inductive peeps : stmts -> stmts -> Prop := peeps_none p : peeps p p | peeps_step p p1 p2 : peep p p1 -> peeps p1 p2 -> peeps p p2.
