(** Model of the grammar tables of the Spicy compiler: spicy/toolchain/src/compiler/codegen/grammar.cc and the productions in
    spicy/toolchain/include/compiler/detail/codegen/productions/.

    Productions are identified by their symbols, which are unique within a grammar (production.h:93-95), here natural numbers.
    Simplified: production::Reference and production::Deferred are resolved, i.e. the symbols inside productions are those of
    Production::follow() and Grammar::resolved() (grammar.cc:41-56, 80-85; production.cc:9-23); expressions, attributes,
    conditions and meta data of productions are left out; a literal is identified by a number standing for its printed value
    and type. *)
From Verif Require Import Base.

Definition sym := nat.
Definition lit := nat.

(** The classes in the productions directory: Sequence and Unit; LookAhead; Switch; Block; Counter, ForEach and While with condition; While with
    look-ahead (its field is the symbol of _body_for_grammar, while.cc:28-64); Enclosure; Epsilon; Ctor and TypeLiteral; Skip around a Ctor
    (with the symbol of that); Variable and Skip without Ctor (with the number of its printed type or field). *)
Inductive prod :=
| PSeq (ps : list sym)
| PLook (a b : sym)
| PSwitch (cases : list sym) (default : option sym)
| PBlock (ps else_ps : list sym)
| PLoop (body : sym)
| PWhile (body_for_grammar : sym)
| PEnclosure (child : sym)
| PEpsilon
| PCtor (l : lit)
| PSkipCtor (ctor_sym : sym) (l : lit)
| PVar (ty : nat).

(** isTerminal of the production classes *)
Definition is_terminal (p : prod) : bool :=
  match p with PEpsilon | PCtor _ | PSkipCtor _ _ | PVar _ => true | _ => false end.
(** rhss of the production classes: sequence.h:37-39, unit.h:49-51, look-ahead.h:62-64, switch.cc:9-19, block.h:51-60,
    counter.h:38, for-each.h:34, while.h:71-73, enclosure.h:36; production.h:172 for terminals *)
Definition rhss (p : prod) : list (list sym) :=
  match p with
  | PSeq ps => [ps]
  | PLook a b => [[a]; [b]]
  | PSwitch cs d => map (fun c => [c]) cs ++ match d with Some x => [[x]] | None => [] end
  | PBlock ps es => ps :: match es with [] => [] | _ => [es] end
  | PLoop b | PWhile b | PEnclosure b => [[b]]
  | _ => []
  end.
(** dump of the terminal classes: epsilon.h:24, ctor.h:38, type-literal.h, skip.h:57-59 (includes the symbol of the ctor, production.cc:86), variable.h *)
Inductive text := TEpsilon | TCtor (l : lit) | TSkip (ctor_sym : sym) (l : lit) | TVar (ty : nat) | TOther.
Definition dump (p : prod) : text :=
  match p with PEpsilon => TEpsilon | PCtor l => TCtor l | PSkipCtor s l => TSkip s l | PVar ty => TVar ty | _ => TOther end.
(** tokenID: ctor.h:34-36, skip.h:44 *)
Definition token_id (p : prod) : option lit := match p with PCtor l | PSkipCtor _ l => Some l | _ => None end.

(** grammar.h:171-187: _prods, _nterms, the symbol of the (resolved) root *)
Record grammar := mkG { g_prods : list (sym * prod); g_nterms : list sym; g_root : sym }.
Definition find (g : grammar) (s : sym) : option prod :=
  match List.find (fun e => Nat.eqb (fst e) s) (g_prods g) with Some e => Some (snd e) | None => None end.
Definition mem (s : sym) (l : list sym) : bool := existsb (Nat.eqb s) l.

(** grammar.cc:41-56 *)
Definition rhss_of (g : grammar) (s : sym) : list (list sym) := match find g s with Some p => rhss p | None => [] end.
Definition terminal (g : grammar) (s : sym) : bool := match find g s with Some p => is_terminal p | None => false end.

(** grammar.cc:138-162 _closureRecurse, _computeClosure; [n] bounds the depth of the recursion *)
Fixpoint closure_rec (n : nat) (g : grammar) (c : list sym) (p : sym) : list sym :=
  match n with
  | O => c
  | S n' =>
      if mem p c then c
      else let c := p :: c in
           if terminal g p then c
           else fold_left (fun c rhs => fold_left (fun c r => closure_rec n' g c r) rhs c) (rhss_of g p) c
  end.
Definition closure (g : grammar) : list sym := closure_rec (S (length (g_prods g))) g [] (g_root g).

(** grammar.cc:122-135: one round of _simplify; the result tells whether something changed *)
Definition simplify_round (g : grammar) : grammar * bool :=
  let c := closure g in
  (mkG (filter (fun e => mem (fst e) c) (g_prods g))
       (filter (fun s => mem s c || negb (mem s (map fst (g_prods g)))) (g_nterms g)) (g_root g),
   negb (forallb (fun e => mem (fst e) c) (g_prods g))).
(** grammar.cc:116-136 _simplify; [n] bounds the number of rounds *)
Fixpoint simplify (n : nat) (g : grammar) : option grammar :=
  match n with
  | O => None
  | S n' => let (g', changed) := simplify_round g in if changed then simplify n' g' else Some g'
  end.

(** grammar.h:183-185 _nullable, _first, _follow *)
Record tables := mkT { t_null : sym -> bool; t_first : sym -> list sym; t_follow : sym -> list sym }.
Definition put {A} (f : sym -> A) (k : sym) (v : A) : sym -> A := fun x => if Nat.eqb x k then v else f x.

(** hilti::util::setUnion; sets are duplicate-free lists, their order plays no role *)
Definition union (a b : list sym) : list sym := a ++ filter (fun x => negb (mem x a)) (nodup Nat.eq_dec b).
(** grammar.cc:164-181 _add; tables and flag [changed] are threaded through *)
Definition add (tbl : sym -> list sym) (dst : sym) (src : list sym) (changed : bool) : (sym -> list sym) * bool :=
  let u := union (tbl dst) src in
  if Nat.eqb (length u) (length (tbl dst)) then (tbl, changed) else (put tbl dst u, true).
Definition add_first (dst : sym) (src : list sym) (st : tables * bool) : tables * bool :=
  let (f, c) := add (t_first (fst st)) dst src (snd st) in (mkT (t_null (fst st)) f (t_follow (fst st)), c).
Definition add_follow (dst : sym) (src : list sym) (st : tables * bool) : tables * bool :=
  let (f, c) := add (t_follow (fst st)) dst src (snd st) in (mkT (t_null (fst st)) (t_first (fst st)) f, c).

(** grammar.cc:183-191 _isNullable; a lookup in the tables always succeeds for the grammars considered *)
Definition is_nullable (g : grammar) (t : tables) (s : sym) : bool :=
  match find g s with
  | Some PEpsilon => true
  | _ => if terminal g s then false else t_null t s
  end.
(** grammar.cc:193-202 *)
Definition all_nullable (g : grammar) (t : tables) (l : list sym) : bool := forallb (is_nullable g t) l.
(** grammar.cc:204-212 _getFirst *)
Definition get_first (g : grammar) (t : tables) (s : sym) : list sym :=
  match find g s with
  | Some PEpsilon => []
  | _ => if terminal g s then [s] else t_first t s
  end.

(** grammar.cc:280-284: the inner loop over [j]; [mid] is what lies between [next] and [j] *)
Fixpoint scan_follow (g : grammar) (x : sym) (mid rest : list sym) (st : tables * bool) : tables * bool :=
  match rest with
  | [] => st
  | y :: rest' =>
      let st := if all_nullable g (fst st) mid then add_follow x (get_first g (fst st) y) st else st in
      scan_follow g x (mid ++ [y]) rest' st
  end.
(** grammar.cc:264-286: the loop over the symbols of one right-hand side; [pre] is what precedes [i] *)
Fixpoint scan (g : grammar) (a : sym) (pre rest : list sym) (st : tables * bool) : tables * bool :=
  match rest with
  | [] => st
  | x :: next =>
      let st := if all_nullable g (fst st) pre then add_first a (get_first g (fst st) x) st else st in
      let st := if terminal g x then st
                else let st := if all_nullable g (fst st) next then add_follow x (t_follow (fst st) a) st else st in
                     scan_follow g x [] next st in
      scan g a (pre ++ [x]) next st
  end.
(** grammar.cc:255-287: one right-hand side *)
Definition process_rhs (g : grammar) (a : sym) (rhs : list sym) (st : tables * bool) : tables * bool :=
  let st := if all_nullable g (fst st) rhs && negb (t_null (fst st) a)
            then (mkT (put (t_null (fst st)) a true) (t_first (fst st)) (t_follow (fst st)), true) else st in
  scan g a [] rhs st.
(** grammar.cc:249-289: one round over all non-terminals *)
Definition round (g : grammar) (t : tables) : tables * bool :=
  fold_left (fun st a => fold_left (fun st rhs => process_rhs g a rhs st) (rhss_of g a) st) (g_nterms g) (t, false).
(** grammar.cc:239-294: initial tables, rounds until nothing changes; [n] bounds the number of rounds *)
Definition no_tables : tables := mkT (fun _ => false) (fun _ => []) (fun _ => []).
Fixpoint rounds (n : nat) (g : grammar) (t : tables) : option tables :=
  match n with
  | O => None
  | S n' => let (t', changed) := round g t in if changed then rounds n' g t' else Some t'
  end.

(** grammar.cc:356-384 lookAheadsForProduction; None is the error *)
Definition look_aheads (g : grammar) (t : tables) (p parent : sym) : option (list sym) :=
  let l := union [] (get_first g t p) in
  let l := if is_nullable g t p then union l (t_follow t parent) else l in
  if forallb (terminal g) l then Some l else None.
(** grammar.cc:297-316: the look-ahead sets of a LookAhead production; not set (i.e. empty) on error *)
Definition look_ahead_sets (g : grammar) (t : tables) (s a b : sym) : list sym * list sym :=
  match look_aheads g t a s, look_aheads g t b s with Some v0, Some v1 => (v0, v1) | _, _ => ([], []) end.

Definition text_eq_dec (a b : text) : {a = b} + {a <> b}.
Proof. decide equality; apply Nat.eq_dec. Defined.
Definition dump_of (g : grammar) (s : sym) : text := match find g s with Some p => dump p | None => TOther end.
Inductive gerror := NoLookAheads (s : sym) | Ambiguous (s : sym) | NonTerminal (s : sym).
(** grammar.cc:319-351: the checks for one production *)
Definition check_one (g : grammar) (t : tables) (s : sym) : option gerror :=
  match find g s with
  | Some (PLook a b) =>
      let (v0, v1) := look_ahead_sets g t s a b in
      let syms1 := map (dump_of g) v0 in
      let syms2 := map (dump_of g) v1 in
      match v0, v1 with
      | [], [] => Some (NoLookAheads s)
      | _, _ =>
          if existsb (fun x => if in_dec text_eq_dec x syms2 then true else false) syms1 then Some (Ambiguous s)
          else if forallb (terminal g) (v0 ++ v1) then None else Some (NonTerminal s)
      end
  | _ => None
  end.
(** grammar.cc:318-354 _check: the first error *)
Fixpoint check (g : grammar) (t : tables) (l : list sym) : option gerror :=
  match l with
  | [] => None
  | s :: l' => match check_one g t s with Some e => Some e | None => check g t l' end
  end.

(** grammar.cc:87-93 finalize.  [m] and [n] bound the numbers of rounds; the outer None means that the bounds are too small. *)
Inductive outcome := Accepted (g : grammar) (t : tables) | Rejected (e : gerror).
Definition finalize (m n : nat) (g : grammar) : option outcome :=
  match simplify m g with
  | None => None
  | Some g =>
      match rounds n g no_tables with
      | None => None
      | Some t => Some (match check g t (g_nterms g) with None => Accepted g t | Some e => Rejected e end)
      end
  end.
