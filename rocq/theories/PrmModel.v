(** Model of the optimizer pass that rewrites function parameters:
    hilti/toolchain/src/compiler/optimizer/passes/optimize-parameters.cc,
    together with the code it reads its facts from
    (collector-callers.h:10-28, optimizer.h:296-323, cfg.cc:774-835,
    ast/node.cc:152-180), and of what the three parameter kinds mean in the
    emitted C++ (codegen/types.cc:1128-1165).

    The language is a cut of HILTI: integers, globals, locals, parameters,
    an operation that throws, calls nested in expressions, assignment,
    conditionals, loops, output.  It is small, but it is what the pass looks
    at: names, calls and their arguments, assignments.  *)
From Coq Require Import ZArith List Bool Arith Lia.
Import ListNotations.

(** declarations/parameter.h: parameter::Kind.  The pass never sees Unknown
    (it runs after the resolver). *)
Inductive pkind := KCopy | KIn | KInOut.

(** expression::Name, by what its resolvedDeclaration() is. *)
Inductive pvar := VG (g : nat) | VL (x : nat) | VP (p : nat).

(** Expressions; the first argument of [ECall] says that the node is a
    struct_::MemberCall and not a function::Call (the object a method is
    called on is left out). *)
Inductive pexpr :=
| EInt (z : Z)
| EVar (v : pvar)
| EAdd (a b : pexpr)
| EDiv (a b : pexpr)
| ECall (meth : bool) (f : nat) (args : list pexpr).

Inductive pstmt :=
| SSkip
| SAssign (v : pvar) (e : pexpr)
| SExpr (e : pexpr)
| SPrint (e : pexpr)
| SSeq (a b : pstmt)
| SIf (c : pexpr) (a b : pstmt)
| SWhile (c : pexpr) (b : pstmt)
| SReturn (e : pexpr).

(** declaration::Function.  [fn_fixed] is the negation of
    Optimizer::mayModify() (optimizer.h:292-323: an attribute `&public`,
    `&always-emit` or `&cxxname`; pre-init, init or export linkage; public in
    strict mode; a linked type that may not be changed);
    [fn_overloads] is the number of declarations the root scope finds under
    the function's fully qualified ID (optimize-parameters.cc:181). *)
Record pfn := PFn {
  fn_params : list (nat * pkind);
  fn_body : pstmt;
  fn_fixed : bool;
  fn_overloads : nat
}.

(** The module's function declarations, in the order of the AST. *)
Definition pprog := list (nat * pfn).

Fixpoint plook {A} (f : nat) (l : list (nat * A)) : option A :=
  match l with
  | [] => None
  | (g, x) :: l' => if Nat.eqb f g then Some x else plook f l'
  end.

(* ------------------------------------------------------------------ *)
(** * What a program does *)

(** Where a value lives: a global, a local of the frame at some call depth,
    or the slot a parameter owns in the frame at some call depth. *)
Inductive ploc := LG (g : nat) | LL (d f x : nat) | LP (d f p : nat).

Definition ploc_eq_dec (a b : ploc) : {a = b} + {a <> b}.
Proof. decide equality; apply Nat.eq_dec. Defined.

Definition pvar_eq_dec (a b : pvar) : {a = b} + {a <> b}.
Proof. decide equality; apply Nat.eq_dec. Defined.

Record pst := PSt { p_sto : ploc -> Z; p_out : list Z }.

Definition pupd (s : pst) (l : ploc) (z : Z) : pst :=
  PSt (fun l' => if ploc_eq_dec l' l then z else p_sto s l') (p_out s).

Inductive pres (A : Type) :=
| POk (s : pst) (a : A)     (* finished with a value *)
| PThrow (s : pst)          (* an exception left the code *)
| PBad                      (* not a program: call and callee disagree *)
| PStop.                    (* out of fuel *)
Arguments POk {A}. Arguments PThrow {A}. Arguments PBad {A}. Arguments PStop {A}.

Inductive psres := SNorm (s : pst) | SRet (s : pst) (z : Z) | SThr (s : pst) | SBad | SStop.

(** The frame a body runs in: its depth, its function, and where each of its
    parameters lives. *)
Record penv := PEnv { e_d : nat; e_f : nat; e_pen : nat -> ploc }.

Definition vloc (r : penv) (v : pvar) : ploc :=
  match v with
  | VG g => LG g
  | VL x => LL (e_d r) (e_f r) x
  | VP p => e_pen r p
  end.

(** What an argument hands over: a value, or a reference. *)
Inductive pbind := BVal (z : Z) | BRef (l : ploc).

(** codegen/types.cc:1128-1165: a `copy` parameter is a C++ value; an `in`
    parameter is a `const T&` and an `inout` parameter a `T&`, which bind to
    the variable itself if the argument is one and to a temporary
    otherwise. *)
Definition by_value (k : pkind) (e : pexpr) : bool :=
  match k, e with
  | KCopy, _ => true
  | _, EVar _ => false
  | _, _ => true
  end.

(** Entering a function: locals start at zero, parameters handed a value own
    a slot, parameters handed a reference live where it points. *)
Definition pen_of (d f : nat) (ps : list (nat * pkind)) (bs : list pbind) (p : nat) : ploc :=
  match plook p (combine (map fst ps) bs) with
  | Some (BRef l) => l
  | _ => LP d f p
  end.

Definition sto_of (d f : nat) (ps : list (nat * pkind)) (bs : list pbind) (s : ploc -> Z) : ploc -> Z :=
  fun l =>
    match l with
    | LG _ => s l
    | LL d' f' _ => if Nat.eqb d' d && Nat.eqb f' f then 0%Z else s l
    | LP d' f' p =>
        if Nat.eqb d' d && Nat.eqb f' f
        then match plook p (combine (map fst ps) bs) with Some (BVal z) => z | _ => s l end
        else s l
    end.

Section Eval.
  Variable P : pprog.
  (** The call of a function, one unit of fuel down. *)
  Variable callf : nat -> nat -> pfn -> list pbind -> pst -> pres Z.

  (** Arguments are evaluated from left to right (C++ leaves the order open),
      all of them before the callee's frame is made. *)
  Fixpoint peval (r : penv) (e : pexpr) (s : pst) : pres Z :=
    match e with
    | EInt z => POk s z
    | EVar v => POk s (p_sto s (vloc r v))
    | EAdd a b =>
        match peval r a s with
        | POk s1 x => match peval r b s1 with POk s2 y => POk s2 (x + y)%Z | o => o end
        | o => o
        end
    | EDiv a b =>
        match peval r a s with
        | POk s1 x =>
            match peval r b s1 with
            | POk s2 y => if Z.eqb y 0 then PThrow s2 else POk s2 (Z.quot x y)
            | o => o
            end
        | o => o
        end
    | ECall _ f args =>
        match plook f P with
        | None => PBad
        | Some fd =>
            match
              (fix go (ps : list (nat * pkind)) (l : list pexpr) (s : pst) {struct l} : pres (list pbind) :=
                 match ps, l with
                 | [], [] => POk s []
                 | (p, k) :: ps', a :: l' =>
                     match (if by_value k a
                            then match peval r a s with
                                 | POk s1 z => POk s1 (BVal z)
                                 | PThrow s1 => PThrow s1
                                 | PBad => PBad
                                 | PStop => PStop
                                 end
                            else match a with EVar v => POk s (BRef (vloc r v)) | _ => PBad end) with
                     | POk s1 b =>
                         match go ps' l' s1 with
                         | POk s2 bs => POk s2 (b :: bs)
                         | o => o
                         end
                     | PThrow s1 => PThrow s1
                     | PBad => PBad
                     | PStop => PStop
                     end
                 | _, _ => PBad
                 end) (fn_params fd) args s
            with
            | POk s1 bs => callf (e_d r) f fd bs s1
            | PThrow s1 => PThrow s1
            | PBad => PBad
            | PStop => PStop
            end
        end
    end.

  Fixpoint pexec (k : nat) (r : penv) (c : pstmt) (s : pst) : psres :=
    match c with
    | SSkip => SNorm s
    | SAssign v e =>
        match peval r e s with
        | POk s1 z => SNorm (pupd s1 (vloc r v) z)
        | PThrow s1 => SThr s1 | PBad => SBad | PStop => SStop
        end
    | SExpr e =>
        match peval r e s with
        | POk s1 _ => SNorm s1
        | PThrow s1 => SThr s1 | PBad => SBad | PStop => SStop
        end
    | SPrint e =>
        match peval r e s with
        | POk s1 z => SNorm (PSt (p_sto s1) (z :: p_out s1))
        | PThrow s1 => SThr s1 | PBad => SBad | PStop => SStop
        end
    | SSeq a b => match pexec k r a s with SNorm s1 => pexec k r b s1 | o => o end
    | SIf e a b =>
        match peval r e s with
        | POk s1 z => if Z.eqb z 0 then pexec k r b s1 else pexec k r a s1
        | PThrow s1 => SThr s1 | PBad => SBad | PStop => SStop
        end
    | SWhile e b =>
        (fix loop (n : nat) (s : pst) : psres :=
           match n with
           | O => SStop
           | S n' =>
               match peval r e s with
               | POk s1 z =>
                   if Z.eqb z 0 then SNorm s1
                   else match pexec k r b s1 with SNorm s2 => loop n' s2 | o => o end
               | PThrow s1 => SThr s1 | PBad => SBad | PStop => SStop
               end
           end) k s
    | SReturn e =>
        match peval r e s with
        | POk s1 z => SRet s1 z
        | PThrow s1 => SThr s1 | PBad => SBad | PStop => SStop
        end
    end.
End Eval.

Definition penter (d f : nat) (fd : pfn) (bs : list pbind) : penv := PEnv d f (pen_of d f (fn_params fd) bs).
Definition penter_st (d f : nat) (fd : pfn) (bs : list pbind) (s : pst) : pst :=
  PSt (sto_of d f (fn_params fd) bs (p_sto s)) (p_out s).

(** A call from a frame at depth [d] runs the callee one deeper. *)
Fixpoint pcall (P : pprog) (n : nat) (d f : nat) (fd : pfn) (bs : list pbind) (s : pst) : pres Z :=
  match n with
  | O => PStop
  | S m =>
      match pexec P (pcall P m) m (penter (S d) f fd bs) (fn_body fd) (penter_st (S d) f fd bs s) with
      | SNorm s1 => POk s1 0%Z
      | SRet s1 z => POk s1 z
      | SThr s1 => PThrow s1
      | SBad => PBad
      | SStop => PStop
      end
  end.

(** Running the module: a function without parameters, on given globals. *)
Definition prun (P : pprog) (n : nat) (main : nat) (globals : nat -> Z) : pres Z :=
  match plook main P with
  | None => PBad
  | Some fd =>
      if Nat.eqb (length (fn_params fd)) 0
      then pcall P n 0 main fd [] (PSt (fun l => match l with LG g => globals g | _ => 0%Z end) [])
      else PBad
  end.

(* ------------------------------------------------------------------ *)
(** * What the pass collects *)

(** The parameters a body names (operator()(expression::Name),
    optimize-parameters.cc:236-247 with removeUsed, 73-102). *)
Definition var_param (v : pvar) : list nat := match v with VP p => [p] | _ => [] end.

Fixpoint eparams (e : pexpr) : list nat :=
  match e with
  | EInt _ => []
  | EVar v => var_param v
  | EAdd a b | EDiv a b => eparams a ++ eparams b
  | ECall _ _ args => flat_map eparams args
  end.

Fixpoint sparams (c : pstmt) : list nat :=
  match c with
  | SSkip => []
  | SAssign v e => var_param v ++ eparams e
  | SExpr e | SPrint e | SReturn e => eparams e
  | SSeq a b => sparams a ++ sparams b
  | SIf e a b => eparams e ++ sparams a ++ sparams b
  | SWhile e b => eparams e ++ sparams b
  end.

(** Every call node with its arguments, nested ones included
    (CollectorCallers, collector-callers.h:10-28: the AST is visited in
    pre-order). *)
Fixpoint ecalls (e : pexpr) : list (bool * nat * list pexpr) :=
  match e with
  | EInt _ | EVar _ => []
  | EAdd a b | EDiv a b => ecalls a ++ ecalls b
  | ECall m f args => (m, f, args) :: flat_map ecalls args
  end.

Fixpoint scalls (c : pstmt) : list (bool * nat * list pexpr) :=
  match c with
  | SSkip => []
  | SAssign _ e | SExpr e | SPrint e | SReturn e => ecalls e
  | SSeq a b => scalls a ++ scalls b
  | SIf e a b => ecalls e ++ scalls a ++ scalls b
  | SWhile e b => ecalls e ++ scalls b
  end.

Definition pcalls (P : pprog) : list (bool * nat * list pexpr) := flat_map (fun q => scalls (fn_body (snd q))) P.

(** usesContainSideEffects, optimize-parameters.cc:42-70: some use of the
    function has an argument that *is* a function::Call. *)
Definition is_fcall (e : pexpr) : bool := match e with ECall false _ _ => true | _ => false end.

Definition uses_effects (P : pprog) (f : nat) : bool :=
  existsb (fun c => match c with (_, g, args) => Nat.eqb g f && existsb is_fcall args end) (pcalls P).

Definition memb (x : nat) (l : list nat) : bool := existsb (Nat.eqb x) l.

(** operator()(declaration::Function), optimize-parameters.cc:160-197, and
    then every name in the body takes its parameter off the list. *)
Definition unused (P : pprog) (f : nat) (fd : pfn) : list nat :=
  if fn_fixed fd then []
  else if 1 <? fn_overloads fd then []
  else if uses_effects P f then []
  else filter (fun i => match nth_error (fn_params fd) i with
                        | Some (p, _) => negb (memb p (sparams (fn_body fd)))
                        | None => false
                        end)
              (List.seq 0 (length (fn_params fd))).

Definition un (P : pprog) (f : nat) : list nat :=
  match plook f P with Some fd => unused P f fd | None => [] end.

(** The variables an expression passes for an `inout` parameter (cfg.cc:774-
    805, processCall: [transfer.gen] for a Name passed to InOut), and the
    variables a body assigns or passes like that (modifiedParameters,
    optimize-parameters.cc:109-129).  The signatures are the ones in [P]. *)
Definition inout_direct (ps : list (nat * pkind)) (args : list pexpr) : list pvar :=
  flat_map (fun q => match q with ((_, KInOut), EVar v) => [v] | _ => [] end) (combine ps args).

Fixpoint ewr (P : pprog) (e : pexpr) : list pvar :=
  match e with
  | EInt _ | EVar _ => []
  | EAdd a b | EDiv a b => ewr P a ++ ewr P b
  | ECall _ f args =>
      match plook f P with Some fd => inout_direct (fn_params fd) args | None => [] end
      ++ flat_map (ewr P) args
  end.

Fixpoint swr (P : pprog) (c : pstmt) : list pvar :=
  match c with
  | SSkip => []
  | SAssign v e => v :: ewr P e
  | SExpr e | SPrint e | SReturn e => ewr P e
  | SSeq a b => swr P a ++ swr P b
  | SIf e a b => ewr P e ++ swr P a ++ swr P b
  | SWhile e b => ewr P e ++ swr P b
  end.

Definition modified (P : pprog) (fd : pfn) : list nat := flat_map var_param (swr P (fn_body fd)).

(** collectPromotable, optimize-parameters.cc:152-169: `copy` and `inout`
    parameters the body does not modify (overloads do not matter here). *)
Definition promotable (P : pprog) (fd : pfn) (p : nat) (k : pkind) : bool :=
  match k with
  | KIn => false
  | KCopy | KInOut => negb (fn_fixed fd) && negb (memb p (modified P fd))
  end.

(* ------------------------------------------------------------------ *)
(** * What the pass changes *)

(** operator()(declaration::Parameter), optimize-parameters.cc:351-377. *)
Definition promote_fn (P : pprog) (fd : pfn) : pfn :=
  PFn (map (fun q => match q with (p, k) => (p, if promotable P fd p k then KIn else k) end) (fn_params fd))
      (fn_body fd) (fn_fixed fd) (fn_overloads fd).

Definition promote (P : pprog) : pprog := map (fun q => match q with (f, fd) => (f, promote_fn P fd) end) P.

(** removeArgs, optimize-parameters.cc:265-291: the arguments whose index is
    not in [positions]. *)
Fixpoint drop_pos {A} (i : nat) (positions : list nat) (l : list A) : list A :=
  match l with
  | [] => []
  | a :: l' => if memb i positions then drop_pos (S i) positions l' else a :: drop_pos (S i) positions l'
  end.

(** pruneFromDecl, optimize-parameters.cc:315-335: erase the positions one at
    a time, the largest first ([unused] is ascending, so sorting it in
    descending order reverses it). *)
Definition erase_at {A} (l : list A) (i : nat) : list A := firstn i l ++ skipn (S i) l.
Definition prune_decl {A} (positions : list nat) (l : list A) : list A :=
  fold_left erase_at (rev positions) l.

(** The position of a function's declaration in the AST, which is when the
    mutator reaches it and prunes its uses (337-341, 293-313). *)
Fixpoint rank_of (f : nat) (P : pprog) : nat :=
  match P with
  | [] => 0
  | (g, _) :: P' => if Nat.eqb f g then 0 else S (rank_of f P')
  end.

(** pruneFromUses over the uses recorded before anything was changed.  A new
    argument tuple is made out of arguments that already have a parent, so
    they are *copied* (ast/node.cc:152-157 and 164-180 through Node's
    constructor, node.h:992-1003): from then on the recorded nested call
    nodes are no longer part of the AST and pruning them changes nothing.
    [lim] is the rank of the earliest function whose pruning copied what is
    around the expression; a nested call is still pruned if its own function
    comes before that one.  (For two uses of one function, the outer one is
    recorded first.) *)
Fixpoint rw (P : pprog) (lim : option nat) (e : pexpr) : pexpr :=
  match e with
  | EInt z => EInt z
  | EVar v => EVar v
  | EAdd a b => EAdd (rw P lim a) (rw P lim b)
  | EDiv a b => EDiv (rw P lim a) (rw P lim b)
  | ECall m f args =>
      let live := match lim with None => true | Some r => rank_of f P <? r end in
      let lim' := match un P f with
                  | [] => lim
                  | _ => match lim with None => Some (rank_of f P) | Some r => Some (Nat.min r (rank_of f P)) end
                  end in
      let args' := map (rw P lim') args in
      ECall m f (if live then drop_pos 0 (un P f) args' else args')
  end.

Fixpoint rws (P : pprog) (c : pstmt) : pstmt :=
  match c with
  | SSkip => SSkip
  | SAssign v e => SAssign v (rw P None e)
  | SExpr e => SExpr (rw P None e)
  | SPrint e => SPrint (rw P None e)
  | SSeq a b => SSeq (rws P a) (rws P b)
  | SIf e a b => SIf (rw P None e) (rws P a) (rws P b)
  | SWhile e b => SWhile (rw P None e) (rws P b)
  | SReturn e => SReturn (rw P None e)
  end.

Definition remove_fn (P : pprog) (f : nat) (fd : pfn) : pfn :=
  PFn (prune_decl (un P f) (fn_params fd)) (rws P (fn_body fd)) (fn_fixed fd) (fn_overloads fd).

Definition remove (P : pprog) : pprog := map (fun q => match q with (f, fd) => (f, remove_fn P f fd) end) P.

(** run(), optimize-parameters.cc:382-391: one mutator does both, with what
    was collected from the program as it was.  Which parameters are unused
    does not depend on their kinds, so doing the promotion first and removing
    afterwards is the same. *)
Definition optimize_params (P : pprog) : pprog := remove (promote P).
