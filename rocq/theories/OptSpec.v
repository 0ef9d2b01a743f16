(* What a program in the language of OptModel does, independently of the optimizer; and the class of programs about which
   the theorems are stated.

   The meaning of statements is that of the C++ code generated for them (codegen/statements.cc:162-520): locals without
   initializer get their type's default value, arguments are evaluated from left to right, inout arguments are references
   to variables. *)
From Coq Require Import List Arith Bool ZArith Lia.
From Verif Require Import OptModel.
Import ListNotations.

(* Exceptions: the failure of an operator (overflow, division by zero ...), anything thrown by a called function or by
   a throw statement, a failed assertion. *)
Inductive exc := XOp | XCall (z : Z) | XThrow (z : Z) | XRethrow | XAssert.

Section Sem.
Variable W : Type.  (* everything outside of the function: output, heap, ... *)

(* What a called function does: it gets the values of its arguments, and the globals and the rest of the world; it
   returns a value or throws, in both cases with new values for its inout parameters, new globals, a new world. *)
Record cres := { cr_exc : option Z; cr_val : Z; cr_outs : list Z; cr_glb : var -> Z; cr_wld : W }.
Record lang := {
  op1 : opname -> Z -> option Z;              (* None: the operator fails *)
  op2 : opname -> Z -> Z -> option Z;
  call : fname -> list Z -> (var -> Z) -> W -> cres;
  dflt : var -> Z;                            (* the default value of a variable's type *)
  glob : var -> bool;                         (* which variables are globals *)
  moved : lab -> bool;                        (* uses of names that are std::move(...) in the generated code *)
  poison : var -> Z                           (* what moving leaves in a variable: unspecified *)
}.
Variable L : lang.

Record state := { loc : var -> Z; glb : var -> Z; wld : W }.
Definition get (s : state) (x : var) : Z := if glob L x then glb s x else loc s x.
Definition fupd (h : var -> Z) (x : var) (v : Z) : var -> Z := fun y => if y =? x then v else h y.
Definition set (s : state) (x : var) (v : Z) : state :=
  if glob L x then {| loc := loc s; glb := fupd (glb s) x v; wld := wld s |}
  else {| loc := fupd (loc s) x v; glb := glb s; wld := wld s |}.

Inductive res (A : Type) := RVal (a : A) (s : state) | RExc (x : exc) (s : state).
Arguments RVal {A}. Arguments RExc {A}.
Definition bind {A B} (r : res A) (k : A -> state -> res B) : res B :=
  match r with RVal a s => k a s | RExc x s => RExc x s end.
Definition of_opt (o : option Z) (s : state) : res Z :=
  match o with Some v => RVal v s | None => RExc XOp s end.
Definition truth (v : Z) : bool := negb (v =? 0)%Z.
Definition b2z (b : bool) : Z := if b then 1%Z else 0%Z.

(* The inout arguments of a call, and writing the values a call leaves in them. *)
Fixpoint inouts (a : args) : list var :=
  match a with ANil => [] | AIn _ a => inouts a | AInOut x a => x :: inouts a end.
Fixpoint write_outs (s : state) (xs : list var) (vs : list Z) : state :=
  match xs, vs with
  | x :: xs, v :: vs => write_outs (set s x v) xs vs
  | _, _ => s
  end.
Definition arg_val (s : state) (a : Z + var) : Z := match a with inl v => v | inr x => get s x end.

Fixpoint eval (e : expr) (s : state) : res Z :=
  match e with
  | EConst _ c => RVal c s
  | EName l x => RVal (get s x) (if moved L l then set s x (poison L x) else s)
  | EUn o e => bind (eval e s) (fun v s => of_opt (op1 L o v) s)
  | EBin o a b => bind (eval a s) (fun v s => bind (eval b s) (fun w s => of_opt (op2 L o v w) s))
  | ENot e => bind (eval e s) (fun v s => RVal (b2z (negb (truth v))) s)
  | EAnd a b => bind (eval a s) (fun v s => if truth v then bind (eval b s) (fun w s => RVal (b2z (truth w)) s) else RVal 0%Z s)
  | EOr a b => bind (eval a s) (fun v s => if truth v then RVal 1%Z s else bind (eval b s) (fun w s => RVal (b2z (truth w)) s))
  | EUpd o x e => bind (eval e s) (fun v s => bind (of_opt (op2 L o (get s x) v) s) (fun w s => RVal w (set s x w)))
  | ECall f a =>
      bind (eval_args a s) (fun vs s =>
        let r := call L f (map (arg_val s) vs) (glb s) (wld s) in
        let s' := write_outs {| loc := loc s; glb := cr_glb r; wld := cr_wld r |} (inouts a) (cr_outs r) in
        match cr_exc r with Some z => RExc (XCall z) s' | None => RVal (cr_val r) s' end)
  end
with eval_args (a : args) (s : state) : res (list (Z + var)) :=
  match a with
  | ANil => RVal [] s
  | AIn e a => bind (eval e s) (fun v s => bind (eval_args a s) (fun vs s => RVal (inl v :: vs) s))
  | AInOut x a => bind (eval_args a s) (fun vs s => RVal (inr x :: vs) s)
  end.

Inductive outcome :=
| ONorm (s : state)
| OBrk (s : state)
| OCont (s : state)
| ORet (v : option Z) (s : state)
| OThr (x : exc) (s : state)
| OFuel.                          (* more loop iterations than the bound *)

Definition obind (r : res Z) (k : Z -> state -> outcome) : outcome :=
  match r with RVal v s => k v s | RExc x s => OThr x s end.
Definition oseq (o : outcome) (k : state -> outcome) : outcome :=
  match o with ONorm s => k s | _ => o end.
Definition exec_init (i : option (var * expr)) (s : state) (k : state -> outcome) : outcome :=
  match i with Some (x, e) => obind (eval e s) (fun v s => k (set s x v)) | None => k s end.

(* n bounds the number of iterations of each loop. *)
Fixpoint exec (n : nat) (c : stmt) (s : state) {struct c} : outcome :=
  match c with
  | SAssign _ x e => obind (eval e s) (fun v s => ONorm (set s x v))
  | SExpr _ e => obind (eval e s) (fun _ s => ONorm s)
  | SDecl _ x (Some e) => obind (eval e s) (fun v s => ONorm (set s x v))
  | SDecl _ x None => ONorm (set s x (dflt L x))
  | SIf i _ c t hasf f =>
      exec_init i s (fun s => obind (eval c s) (fun v s =>
        if truth v then execs n t s else if hasf then execs n f s else ONorm s))
  | SWhile i _ c b hase e =>
      exec_init i s (fun s =>
        (fix loop (k : nat) (s : state) {struct k} : outcome :=
           match k with
           | 0 => OFuel
           | S k =>
               obind (eval c s) (fun v s =>
                 if truth v then
                   match execs n b s with
                   | ONorm s | OCont s => loop k s
                   | OBrk s => ONorm s
                   | o => o
                   end
                 else if hase then execs n e s else ONorm s)
           end) n s)
  | STry b k =>
      match execs n b s with
      | OThr _ s => execs n k s
      | o => o
      end
  | SThrow _ (Some e) => obind (eval e s) (fun v s => OThr (XThrow v) s)
  | SThrow _ None => OThr XRethrow s
  | SReturn _ (Some e) => obind (eval e s) (fun v s => ORet (Some v) s)
  | SReturn _ None => ORet None s
  | SAssert _ e => obind (eval e s) (fun v s => if truth v then ONorm s else OThr XAssert s)
  | SBreak => OBrk s
  | SContinue => OCont s
  | SBlock b => execs n b s
  end
with execs (n : nat) (cs : stmts) (s : state) {struct cs} : outcome :=
  match cs with
  | SNil => ONorm s
  | SCons c r => oseq (exec n c s) (fun s => execs n r s)
  end.

(* What the caller of a function sees: the result, and what the function leaves in its inout parameters, the globals
   and the rest of the world. *)
Inductive seen :=
| Returns (v : option Z) (outs : list Z) (g : var -> Z) (w : W)
| Throws (x : exc) (outs : list Z) (g : var -> Z) (w : W)
| Diverges.                      (* not finished within n iterations of some loop *)

Definition outs (f : func) (s : state) : list Z :=
  map (fun p => loc s (fst p)) (filter snd (f_params f)).
Definition start (f : func) (args : var -> Z) (g : var -> Z) (w : W) : state := {| loc := args; glb := g; wld := w |}.
Definition run (n : nat) (f : func) (args g : var -> Z) (w : W) : seen :=
  match execs n (f_body f) (start f args g w) with
  | ONorm s | OBrk s | OCont s => Returns None (outs f s) (glb s) (wld s)
  | ORet v s => Returns v (outs f s) (glb s) (wld s)
  | OThr x s => Throws x (outs f s) (glb s) (wld s)
  | OFuel => Diverges
  end.
End Sem.

Arguments RVal {W A}. Arguments RExc {W A}.
Arguments ONorm {W}. Arguments OBrk {W}. Arguments OCont {W}. Arguments ORet {W}. Arguments OThr {W}. Arguments OFuel {W}.
Arguments Returns {W}. Arguments Throws {W}. Arguments Diverges {W}.
Arguments loc {W}. Arguments glb {W}. Arguments wld {W}.

(* ---- reaching updates: paths in a graph ---- *)

Definition edge (g : graph) (a b : gnode) : Prop := In (a, b) (g_edges g).

(* The update of x at p arrives at n: there is a path of at least one edge from p to n such that no node in between
   updates x or ends a scope that x belongs to. *)
Inductive arrives (g : graph) (gen : gnode -> list var) (x : var) (p : gnode) : gnode -> Prop :=
| arr_edge n : edge g p n -> arrives g gen x p n
| arr_step m n :
    arrives g gen x p m -> ~ In x (gen m) -> (forall k scope, m = NEnd k scope -> ~ In x scope) -> edge g m n ->
    arrives g gen x p n.

(* A graph whose edges are between its nodes. *)
Definition closed (g : graph) : Prop := forall a b, edge g a b -> In a (g_nodes g) /\ In b (g_nodes g).

(* ---- classes of programs ---- *)

(* Every statement, at any depth, has the property. *)
Fixpoint each (P : stmt -> Prop) (s : stmt) {struct s} : Prop :=
  P s /\
  match s with
  | SIf _ _ _ t _ f => each_of P t /\ each_of P f
  | SWhile _ _ _ b _ e => each_of P b /\ each_of P e
  | STry b c => each_of P b /\ each_of P c
  | SBlock b => each_of P b
  | _ => True
  end
with each_of (P : stmt -> Prop) (ss : stmts) {struct ss} : Prop :=
  match ss with
  | SNil => True
  | SCons s r => each P s /\ each_of P r
  end.

(* No break, no continue, no try (and so no throw without exception, which is for catch blocks). *)
Definition no_jump (s : stmt) : Prop :=
  match s with SBreak | SContinue | STry _ _ | SThrow _ None => False | _ => True end.

(* Names refer to a global or to something that is declared before; nothing is declared twice in nested scopes; what is
   declared is not a global. *)
Section Scoped.
Variable G : var -> bool.
Definition visible (V : list var) (e : expr) : Prop := forall x, In x (names e) -> G x = true \/ In x V.
Definition fresh (V : list var) (x : var) : Prop := G x = false /\ ~ In x V.
Definition sc_init (V : list var) (i : option (var * expr)) : Prop :=
  match i with Some (x, e) => fresh V x /\ visible V e | None => True end.
Definition with_init (V : list var) (i : option (var * expr)) : list var :=
  match i with Some (x, _) => x :: V | None => V end.
Definition sc_opt (V : list var) (o : option expr) : Prop := match o with Some e => visible V e | None => True end.
Definition declared (V : list var) (s : stmt) : list var := match s with SDecl _ x _ => x :: V | _ => V end.
Fixpoint scoped (V : list var) (s : stmt) {struct s} : Prop :=
  match s with
  | SAssign _ x e => (G x = true \/ In x V) /\ visible V e
  | SExpr _ e | SAssert _ e => visible V e
  | SDecl _ x o => fresh V x /\ sc_opt V o
  | SThrow _ o | SReturn _ o => sc_opt V o
  | SIf i _ c t _ f =>
      sc_init V i /\ visible (with_init V i) c /\ scoped_of (with_init V i) t /\ scoped_of (with_init V i) f
  | SWhile i _ c b _ e =>
      sc_init V i /\ visible (with_init V i) c /\ scoped_of (with_init V i) b /\ scoped_of (with_init V i) e
  | STry b c => scoped_of V b /\ scoped_of V c
  | SBlock b => scoped_of V b
  | SBreak | SContinue => True
  end
with scoped_of (V : list var) (ss : stmts) {struct ss} : Prop :=
  match ss with
  | SNil => True
  | SCons s r => scoped V s /\ scoped_of (declared V s) r
  end.
End Scoped.

(* A function as the compiler hands it to the optimizer: resolved names, a different identity for each node; the
   parameters are not globals. *)
Definition well_formed (G : var -> bool) (f : func) : Prop :=
  scoped_of G (map fst (f_params f)) (f_body f) /\
  (forall x, In x (map fst (f_params f)) -> G x = false) /\
  NoDup (map (fun p => NDecl (fst p)) (f_params f) ++ map fst (info (f_body f))).

(* An expression without x += e and the like. *)
Fixpoint no_update (e : expr) : bool :=
  match e with
  | EConst _ _ | EName _ _ => true
  | EUn _ e | ENot e => no_update e
  | EBin _ a b | EAnd a b | EOr a b => no_update a && no_update b
  | EUpd _ _ _ => false
  | ECall _ a => no_update_args a
  end
with no_update_args (a : args) : bool :=
  match a with
  | ANil => true
  | AIn e a => no_update e && no_update_args a
  | AInOut _ a => no_update_args a
  end.

(* The data-flow facts of a function: what the iteration ends with, whatever the order of the nodes. *)
Definition gen_of (f : func) (n : gnode) : list var := t_gen (transfer_of f n).
Definition flow_result (f : func) (d : dflow) : Prop :=
  exists fuel order, (forall n, In n order <-> In n (g_nodes (build f))) /\
    flow_solve fuel (build f) (gen_of f) order d0 = Some d.

(* Programs for which dead code removal is right: no assignment to a global, no update hidden in a logical expression
   used as a statement, nor in an assignment that reads what it assigns to (which is allowed at all if `self'). *)
Definition dce_cond (G : var -> bool) (self : Prop) (s : stmt) : Prop :=
  match s with
  | SAssign _ x e => G x = false /\ (In x (names e) -> self /\ no_update e = true)
  | SExpr _ (ENot e) => no_update e = true
  | SExpr _ (EAnd a b) | SExpr _ (EOr a b) => no_update a = true /\ no_update b = true
  | _ => True
  end.

(* Two runs look the same to the caller, but for the inout parameters if there is an exception; a run fails in an
   operator. *)
Definition same_seen (W : Type) (a b : seen W) : Prop :=
  match a, b with
  | Throws x _ g w, Throws x' _ g' w' => x = x' /\ g = g' /\ w = w'
  | _, _ => a = b
  end.
Definition failed (W : Type) (a : seen W) : Prop := match a with Throws XOp _ _ _ => True | _ => False end.
