(* The control-flow graph, the data-flow facts and the dead-code pass of the HILTI optimizer:
   hilti/toolchain/src/compiler/cfg.cc and hilti/toolchain/src/compiler/optimizer/passes/dead-code-cfg.cc.

   Simplifications, for the whole file.  The code under analysis is the body of one function.  Values have no aliasing
   type (integers, say): maybe_alias is always empty (cfg.cc:1077-1136 does nothing then).  An assignment has a plain
   name on its left side and is a statement of its own.  Not modelled: for and switch statements, structs, self, module
   bodies, statements whose expression child is itself a function call node of the graph (cfg.cc:352 only).  AST nodes
   that the graph refers to carry a label, standing for Node::identity(); a declaration is its own label, and names are
   resolved: EName and the other uses refer to the declaration. *)
From Coq Require Import List Arith Bool ZArith Lia.
Import ListNotations.

Definition var := nat.     (* Declaration* *)
Definition lab := nat.     (* Node::identity() of a statement or expression *)
Definition fname := nat.
Definition opname := nat.

(* ast/expressions/: ctor, name, resolved-operator (operands In: EUn, EBin; operand 0 InOut: EUpd, such as x += e),
   logical-not/and/or, function call (operators/function.cc:10: parameters In/Copy or InOut). *)
Inductive expr :=
| EConst (l : lab) (c : Z)
| EName (l : lab) (x : var)
| EUn (o : opname) (e : expr)
| EBin (o : opname) (e1 e2 : expr)
| ENot (e : expr)
| EAnd (e1 e2 : expr)
| EOr (e1 e2 : expr)
| EUpd (o : opname) (x : var) (e : expr)
| ECall (f : fname) (a : args)
with args :=
| ANil
| AIn (e : expr) (a : args)
| AInOut (x : var) (a : args).

(* ast/statements/: an expression statement is SAssign if its expression is an assignment and SExpr otherwise.  The
   label of SIf and SWhile is that of the condition, the label of SThrow that of the thrown expression. *)
Inductive stmt :=
| SAssign (l : lab) (x : var) (e : expr)
| SExpr (l : lab) (e : expr)
| SDecl (l : lab) (x : var) (i : option expr)
| SIf (i : option (var * expr)) (l : lab) (c : expr) (t : stmts) (hasf : bool) (f : stmts)
| SWhile (i : option (var * expr)) (l : lab) (c : expr) (b : stmts) (hase : bool) (e : stmts)
| STry (b c : stmts)
| SThrow (l : lab) (e : option expr)
| SReturn (l : lab) (e : option expr)
| SAssert (l : lab) (e : expr)
| SBreak
| SContinue
| SBlock (b : stmts)
with stmts :=
| SNil
| SCons (s : stmt) (r : stmts).

(* A function: parameters with a flag for inout, and a body. *)
Record func := { f_params : list (var * bool); f_body : stmts }.

(* cfg.h:80-106 GraphNode: a statement or expression, a declaration (local variable or parameter), or one of the meta
   nodes Start, Flow, End.  An End carries the node of its scope; all that is asked of it is cfg::contains(scope, decl)
   (cfg.cc:180), so it carries the declarations inside. *)
Inductive gnode :=
| NStart
| NFlow (k : nat)
| NEnd (k : nat) (scope : list var)
| NDecl (x : var)
| NStmt (l : lab).

Definition is_meta (n : gnode) : bool :=
  match n with NStart | NFlow _ | NEnd _ _ => true | _ => false end.

Definition list_nat_eqb (a b : list nat) : bool := if list_eq_dec Nat.eq_dec a b then true else false.

Definition gnode_eqb (a b : gnode) : bool :=
  match a, b with
  | NStart, NStart => true
  | NFlow k, NFlow k' => k =? k'
  | NEnd k s, NEnd k' s' => (k =? k') && list_nat_eqb s s'
  | NDecl x, NDecl x' => x =? x'
  | NStmt l, NStmt l' => l =? l'
  | _, _ => false
  end.

Definition mem (x : nat) (l : list nat) : bool := existsb (Nat.eqb x) l.
Definition memn (n : gnode) (l : list gnode) : bool := existsb (gnode_eqb n) l.

(* The declarations below a statement (what cfg::contains finds). *)
Fixpoint decls_stmt (s : stmt) : list var :=
  match s with
  | SDecl _ x _ => [x]
  | SIf i _ _ t _ f => (match i with Some (x, _) => [x] | None => [] end) ++ decls t ++ decls f
  | SWhile i _ _ b _ e => (match i with Some (x, _) => [x] | None => [] end) ++ decls b ++ decls e
  | STry b c => decls b ++ decls c
  | SBlock b => decls b
  | _ => []
  end
with decls (ss : stmts) : list var :=
  match ss with
  | SNil => []
  | SCons s r => decls_stmt s ++ decls r
  end.

(* ---- base/graph.h:24-190 DirectedGraph, as far as the optimizer looks at it: nodes and neighbours ---- *)

(* The graph under construction: number of meta nodes created, nodes and edges in the order of their creation. *)
Record cst := { c_next : nat; c_nodes : list gnode; c_edges : list (gnode * gnode) }.

(* cfg.cc:572 CFG::_getOrAddNode. *)
Definition get_or_add (n : gnode) (c : cst) : cst :=
  if memn n (c_nodes c) then c else {| c_next := c_next c; c_nodes := c_nodes c ++ [n]; c_edges := c_edges c |}.

(* cfg.cc:580-595 CFG::_addEdge: nothing if one of them is null, if `from' is the end of the function, or if there is
   such an edge already. *)
Definition add_edge (end_ : gnode) (from to : option gnode) (c : cst) : cst :=
  match from, to with
  | Some a, Some b =>
      if gnode_eqb a end_ then c
      else if existsb (fun e => gnode_eqb (fst e) a && gnode_eqb (snd e) b) (c_edges c) then c
      else {| c_next := c_next c; c_nodes := c_nodes c; c_edges := c_edges c ++ [(a, b)] |}
  | _, _ => c
  end.

(* cfg.h:251-260 CFG::_createMetaNode, then _getOrAddNode. *)
Definition new_flow (c : cst) : gnode * cst :=
  (NFlow (c_next c),
   {| c_next := S (c_next c); c_nodes := c_nodes c ++ [NFlow (c_next c)]; c_edges := c_edges c |}).
Definition new_end (scope : list var) (c : cst) : gnode * cst :=
  (NEnd (c_next c) scope,
   {| c_next := S (c_next c); c_nodes := c_nodes c ++ [NEnd (c_next c) scope]; c_edges := c_edges c |}).

(* Add a node and an edge to it from the predecessor; the node is the new predecessor. *)
Definition chain (end_ : gnode) (pred : option gnode) (n : gnode) (c : cst) : option gnode * cst :=
  (Some n, add_edge end_ pred (Some n) (get_or_add n c)).

(* cfg.cc:317-319. *)
Definition is_control (s : stmt) : bool :=
  match s with SReturn _ _ | SThrow _ _ | SContinue | SBreak => true | _ => false end.

(* cfg.cc:305-405 CFG::_addBlock with _addWhile (424-450), _addIf (452-477), _addTryCatch (479-499), _addReturn
   (539-545), _addThrow (547-559).  add_stmts is the loop of _addBlock (329-388) and what follows it for unreachable
   statements (390-397); block is _addBlock around it.  The nested _addBlock of lines 378-383 for a statement without
   statements inside adds a node and removes it again: left out. *)
Fixpoint add_stmt (end_ : gnode) (s : stmt) (pred : option gnode) (send : gnode) (c : cst) {struct s} : option gnode * cst :=
  let block ss pred scope c :=
    let (send, c) := new_end scope c in
    let (q, c) := add_stmts end_ ss pred send scope c in
    (Some send, add_edge end_ q (Some send) c) in
  let init i pred c := match i with Some (x, _) => chain end_ pred (NDecl x) c | None => (pred, c) end in
  match s with
  | SAssign l _ _ | SExpr l _ | SAssert l _ => chain end_ pred (NStmt l) c
  | SDecl _ x _ => chain end_ pred (NDecl x) c
  | SIf i l _ t hasf f =>
      let (pred, c) := init i pred c in
      let (cond, c) := chain end_ pred (NStmt l) c in
      let (mix, c) := new_flow c in
      let (t_end, c) := block t cond (decls t) c in
      let c := add_edge end_ t_end (Some mix) c in
      if hasf then
        let (f_end, c) := block f cond (decls f) c in
        (Some mix, add_edge end_ f_end (Some mix) c)
      else (Some mix, add_edge end_ cond (Some mix) c)
  | SWhile i l _ b hase e =>
      let (pred, c) := init i pred c in
      let (cond, c) := chain end_ pred (NStmt l) c in
      let (b_end, c) := block b cond (decls b) c in
      let c := add_edge end_ b_end cond c in
      let (mix, c) := new_flow c in
      let c := add_edge end_ cond (Some mix) c in
      if hase then
        let (e_end, c) := block e cond (decls e) c in
        (Some mix, add_edge end_ e_end (Some mix) c)
      else (Some mix, c)
  | STry b k =>
      let (b_end, c) := block b pred (decls b) c in
      let (after, c) := new_flow c in
      let c := add_edge end_ b_end (Some after) c in
      let (into, c) := new_flow c in
      let c := add_edge end_ b_end (Some into) c in
      let (k_end, c) := block k (Some into) (decls k) c in
      (Some after, add_edge end_ k_end (Some after) c)
  | SThrow l e =>
      match e with
      | Some _ =>
          let (n, c) := chain end_ pred (NStmt l) c in
          (Some send, add_edge end_ n (Some send) c)
      | None => (Some send, add_edge end_ pred (Some send) c)
      end
  | SReturn l _ =>
      let (n, c) := chain end_ pred (NStmt l) c in
      (Some end_, add_edge end_ n (Some end_) c)
  | SBreak | SContinue => (pred, c)
  | SBlock b => block b pred (decls b) c
  end
with add_stmts (end_ : gnode) (ss : stmts) (pred : option gnode) (send : gnode) (scope : list var) (c : cst) {struct ss}
  : option gnode * cst :=
  match ss with
  | SNil => (pred, c)
  | SCons s r =>
      let (p, c) := add_stmt end_ s pred send c in
      if is_control s then
        match r with
        | SNil => (p, c)
        | SCons _ _ =>
            let (send', c) := new_end scope c in
            let (q, c) := add_stmts end_ r None send' scope c in
            let c := add_edge end_ q (Some send') c in
            let (mix, c) := new_flow c in
            let c := add_edge end_ p (Some mix) c in
            (Some mix, add_edge end_ (Some send') (Some mix) c)
        end
      else add_stmts end_ r p send scope c
  end.

Definition add_block (end_ : gnode) (ss : stmts) (pred : option gnode) (scope : list var) (c : cst) : option gnode * cst :=
  let (send, c) := new_end scope c in
  let (q, c) := add_stmts end_ ss pred send scope c in
  (Some send, add_edge end_ q (Some send) c).

(* The node CFG::_end of a function: the first meta node after Start (cfg.cc:195-196). *)
Definition fend (f : func) : gnode := NEnd 0 (decls (f_body f)).

(* cfg.cc:256-275 CFG::_addParameters for a plain function. *)
Definition add_params (end_ : gnode) (ps : list (var * bool)) (c : cst) : option gnode * cst :=
  fold_left (fun '(pred, c) p => chain end_ pred (NDecl (fst p)) c) ps (Some NStart, c).

(* cfg.cc:193-206 the first part of the constructor CFG::CFG. *)
Definition build_raw (f : func) : cst :=
  let end_ := fend f in
  let c := {| c_next := 1; c_nodes := [NStart; end_]; c_edges := [] |} in
  let (begin_, c) := add_params end_ (f_params f) c in
  let (last, c) := add_block end_ (f_body f) begin_ (decls (f_body f)) c in
  add_edge end_ last (Some end_) c.

Record graph := { g_nodes : list gnode; g_edges : list (gnode * gnode) }.

(* base/graph.h:140-160. *)
Definition upstream (g : graph) (n : gnode) : list gnode :=
  map fst (filter (fun e => gnode_eqb (snd e) n) (g_edges g)).
Definition downstream (g : graph) (n : gnode) : list gnode :=
  map snd (filter (fun e => gnode_eqb (fst e) n) (g_edges g)).

(* cfg.cc:208-230: one round of removing the meta nodes other than Start that have no incoming edge (graph.h:74-88
   removes their edges too), and the rounds until there are none; a round per node is always enough. *)
Definition dead_end (g : graph) (n : gnode) : bool :=
  is_meta n && negb (gnode_eqb n NStart) && match upstream g n with [] => true | _ => false end.
Definition prune_round (g : graph) : graph :=
  let dead := filter (dead_end g) (g_nodes g) in
  {| g_nodes := filter (fun n => negb (memn n dead)) (g_nodes g);
     g_edges := filter (fun e => negb (memn (fst e) dead) && negb (memn (snd e) dead)) (g_edges g) |}.
Fixpoint prune (k : nat) (g : graph) : graph :=
  match k with
  | 0 => g
  | S k =>
      match filter (dead_end g) (g_nodes g) with
      | [] => g
      | _ => prune k (prune_round g)
      end
  end.

Definition build (f : func) : graph :=
  let c := build_raw f in
  prune (length (c_nodes c)) {| g_nodes := c_nodes c; g_edges := c_edges c |}.

(* ---- cfg.h:131-165 Transfer, cfg.cc:759-1040 DataflowVisitor ---- *)

Record transfer := { t_gen : list var; t_read : list var; t_write : list var; t_keep : bool }.
Definition t_empty : transfer := {| t_gen := []; t_read := []; t_write := []; t_keep := false |}.

(* All names in an expression; the arguments given for inout parameters (cfg.cc:774-799 processCall: gen); whether
   there is a call (keep). *)
Fixpoint names (e : expr) : list var :=
  match e with
  | EConst _ _ => []
  | EName _ x => [x]
  | EUn _ e | ENot e => names e
  | EBin _ a b | EAnd a b | EOr a b => names a ++ names b
  | EUpd _ x e => x :: names e
  | ECall _ a => names_args a
  end
with names_args (a : args) : list var :=
  match a with
  | ANil => []
  | AIn e a => names e ++ names_args a
  | AInOut x a => x :: names_args a
  end.

Fixpoint call_gen (e : expr) : list var :=
  match e with
  | EConst _ _ | EName _ _ => []
  | EUn _ e | ENot e => call_gen e
  | EBin _ a b | EAnd a b | EOr a b => call_gen a ++ call_gen b
  | EUpd _ _ e => call_gen e
  | ECall _ a => call_gen_args a
  end
with call_gen_args (a : args) : list var :=
  match a with
  | ANil => []
  | AIn e a => call_gen e ++ call_gen_args a
  | AInOut x a => x :: call_gen_args a
  end.

Fixpoint has_call (e : expr) : bool :=
  match e with
  | EConst _ _ | EName _ _ => false
  | EUn _ e | ENot e => has_call e
  | EBin _ a b | EAnd a b | EOr a b => has_call a || has_call b
  | EUpd _ _ e => has_call e
  | ECall _ _ => true
  end.

(* cfg.cc:84-129 isConstOperand: the names in an operand that are not, themselves, an operand passed In. *)
Definition indirect (e : expr) : list var := match e with EName _ _ => [] | _ => names e end.
Fixpoint indirect_args (a : args) : list var :=
  match a with
  | ANil => []
  | AIn e a => indirect e ++ indirect_args a
  | AInOut x a => x :: indirect_args a
  end.

(* cfg.cc:832-938 the visitor for expression::Name, for the names of an expression statement or of a control expression:
   lines 912-918 (logical operators, a name alone), 920-922 (operands of an operator), 924-929 (all else). *)
Definition top_write (e : expr) : list var :=
  match e with
  | EConst _ _ | EName _ _ | ENot _ | EAnd _ _ | EOr _ _ => []
  | EUn _ e => indirect e
  | EBin _ a b => indirect a ++ indirect b
  | EUpd _ x e => x :: indirect e
  | ECall _ a => indirect_args a
  end.

Definition tr_expr (control : bool) (e : expr) : transfer :=
  {| t_gen := call_gen e; t_read := names e; t_write := top_write e;
     t_keep := control || has_call e || match top_write e with [] => false | _ => true end |}.

Definition opt_expr {A} (f : expr -> list A) (o : option expr) : list A := match o with Some e => f e | None => [] end.

(* 852-893 for an assignment; 1016-1039 for a local variable (names: 895-910); statements that are always kept 766-771. *)
Definition tr_assign (x : var) (e : expr) : transfer :=
  {| t_gen := x :: call_gen e; t_read := names e; t_write := [x]; t_keep := has_call e |}.
Definition tr_decl (x : var) (i : option expr) : transfer :=
  {| t_gen := x :: opt_expr call_gen i; t_read := opt_expr names i; t_write := [];
     t_keep := match i with Some e => has_call e | None => false end |}.
Definition tr_kept (o : option expr) : transfer :=
  {| t_gen := opt_expr call_gen o; t_read := opt_expr names o; t_write := []; t_keep := true |}.

(* cfg.cc:1043-1060: the transfer of each node that the statements contribute.  Parameters and meta nodes have an
   empty one. *)
Definition init_info (i : option (var * expr)) : list (gnode * transfer) :=
  match i with Some (x, e) => [(NDecl x, tr_decl x (Some e))] | None => [] end.
Fixpoint info_stmt (s : stmt) : list (gnode * transfer) :=
  match s with
  | SAssign l x e => [(NStmt l, tr_assign x e)]
  | SExpr l e => [(NStmt l, tr_expr false e)]
  | SDecl _ x i => [(NDecl x, tr_decl x i)]
  | SIf i l c t _ f => init_info i ++ (NStmt l, tr_expr true c) :: info t ++ info f
  | SWhile i l c b _ e => init_info i ++ (NStmt l, tr_expr true c) :: info b ++ info e
  | STry b c => info b ++ info c
  | SThrow l (Some e) => [(NStmt l, tr_expr true e)]
  | SThrow l None => []
  | SReturn l o => [(NStmt l, tr_kept o)]
  | SAssert l e => [(NStmt l, tr_kept (Some e))]
  | SBreak | SContinue => []
  | SBlock b => info b
  end
with info (ss : stmts) : list (gnode * transfer) :=
  match ss with
  | SNil => []
  | SCons s r => info_stmt s ++ info r
  end.

Definition transfer_of (f : func) (n : gnode) : transfer :=
  match find (fun p => gnode_eqb (fst p) n) (info (f_body f)) with
  | Some (_, t) => t
  | None => t_empty
  end.

(* ---- cfg.cc:1138-1227: the iteration for in, kill and out ---- *)

(* A map from declarations to sets of nodes, as a set of pairs (no entry is ever left empty). *)
Definition facts := list (var * gnode).
Definition memf (p : var * gnode) (l : facts) : bool :=
  existsb (fun q => (fst p =? fst q) && gnode_eqb (snd p) (snd q)) l.
Definition sub_facts (a b : facts) : bool := forallb (fun p => memf p b) a.
Definition eq_facts (a b : facts) : bool := sub_facts a b && sub_facts b a.

Record dflow := { d_in : gnode -> facts; d_kill : gnode -> facts; d_out : gnode -> facts }.
Definition upd (h : gnode -> facts) (n : gnode) (v : facts) : gnode -> facts :=
  fun m => if gnode_eqb m n then v else h m.
Definition d0 : dflow := {| d_in := fun _ => []; d_kill := fun _ => []; d_out := fun _ => [] |}.

(* cfg.cc:1176-1205: which declarations lose their incoming updates at a node. *)
Definition kills (gen : gnode -> list var) (n : gnode) (x : var) : bool :=
  mem x (gen n) || match n with NEnd _ scope => mem x scope | _ => false end.

(* One node of the inner loop (1145-1225): the new facts and whether something changed. *)
Definition flow_node (g : graph) (gen : gnode -> list var) (n : gnode) (d : dflow) : dflow * bool :=
  let new_in := flat_map (d_out d) (upstream g n) in
  let ch1 := negb (eq_facts (d_in d n) new_in) in
  let in_ := if ch1 then new_in else d_in d n in
  let killed := filter (fun p => kills gen n (fst p)) in_ in
  let ch2 := negb (sub_facts killed (d_kill d n)) in
  let kill := filter (fun p => negb (memf p (d_kill d n))) killed ++ d_kill d n in
  let new_out := map (fun x => (x, n)) (gen n) ++ filter (fun p => negb (memf p kill)) in_ in
  let ch3 := negb (eq_facts (d_out d n) new_out) in
  let out := if ch3 then new_out else d_out d n in
  ({| d_in := upd (d_in d) n in_; d_kill := upd (d_kill d) n kill; d_out := upd (d_out d) n out |},
   ch1 || ch2 || ch3).

Fixpoint flow_sweep (g : graph) (gen : gnode -> list var) (ns : list gnode) (d : dflow) : dflow * bool :=
  match ns with
  | [] => (d, false)
  | n :: r =>
      let (d, ch) := flow_node g gen n d in
      let (d, ch') := flow_sweep g gen r d in
      (d, ch || ch')
  end.

(* do { ... } while ( changed ), with a bound on the number of rounds; None: not finished within it.  `order' is the
   order of the map _dataflow: that of the addresses of the nodes, so it can be any. *)
Fixpoint flow_solve (fuel : nat) (g : graph) (gen : gnode -> list var) (order : list gnode) (d : dflow) : option dflow :=
  match fuel with
  | 0 => None
  | S k =>
      let (d, ch) := flow_sweep g gen order d in
      if ch then flow_solve k g gen order d else Some d
  end.

(* ---- passes/dead-code-cfg.cc ---- *)

Section Dce.
Variable f : func.
Variable glob : var -> bool.  (* declaration::GlobalVariable *)
Let g := build f.
Let tr := transfer_of f.

(* 60-87: declarations whose value at an End node counts as used: globals and inout parameters. *)
Definition outlives (x : var) : bool :=
  glob x || existsb (fun p => (fst p =? x) && snd p) (f_params f).

(* 42-128 unusedStatements: whether ++uses[n] is executed for a node n. *)
Definition used (d : dflow) (n : gnode) : bool :=
  (* 59-83 *)
  existsb (fun m => match m with
                    | NEnd _ _ => existsb (fun p => gnode_eqb (snd p) n && outlives (fst p)) (d_in d m)
                    | _ => false end) (g_nodes g)
  (* 98-103 *)
  || match n with
     | NDecl x => existsb (fun m => mem x (t_gen (tr m)) &&
                     existsb (fun m' => negb (gnode_eqb m' m) && mem x (t_write (tr m'))) (g_nodes g)) (g_nodes g)
     | _ => false end
  (* 91-115 *)
  || existsb (fun x => existsb (fun m => negb (gnode_eqb m n) && mem x (t_read (tr m)) &&
                                 existsb (fun p => gnode_eqb (snd p) n) (d_in d m)) (g_nodes g)) (t_gen (tr n)).

(* 85-86, 117-128 *)
Definition unused (d : dflow) (n : gnode) : bool :=
  memn n (g_nodes g) && negb (is_meta n) && negb (used d n) && negb (t_keep (tr n)).

(* 30-40 unreachableNodes *)
Definition unreachable (n : gnode) : bool :=
  memn n (g_nodes g) && negb (is_meta n) && match upstream g n with [] => true | _ => false end.

End Dce.

(* cfg.cc:1281-1320 mayHaveSideEffects for the initializer of an if or while: the statement is not a node of the
   graph, so anything but a constant or a name counts as having some. *)
Definition simple_init (e : expr) : bool := match e with EConst _ _ | EName _ _ => true | _ => false end.

(* 130-195 remove, for a set of nodes: the function's body afterwards. *)
Definition rm_init (rm : gnode -> bool) (i : option (var * expr)) : option (var * expr) :=
  match i with
  | Some (x, e) => if rm (NDecl x) && simple_init e then None else i
  | None => None
  end.
Fixpoint rm_stmts (rm : gnode -> bool) (ss : stmts) : stmts :=
  match ss with
  | SNil => SNil
  | SCons s r =>
      let r' := rm_stmts rm r in
      match s with
      | SAssign l x e => if rm (NStmt l) then SCons (SExpr l e) r' else SCons s r'
      | SExpr l _ | SReturn l _ | SAssert l _ => if rm (NStmt l) then r' else SCons s r'
      | SThrow l o => match o with Some _ => if rm (NStmt l) then r' else SCons s r' | None => SCons s r' end
      | SDecl l x i =>
          if rm (NDecl x) then match i with Some e => SCons (SExpr l e) r' | None => r' end else SCons s r'
      | SIf i l c t hasf b =>
          if rm (NStmt l) then r'
          else SCons (SIf (rm_init rm i) l c (rm_stmts rm t) hasf (rm_stmts rm b)) r'
      | SWhile i l c b hase e =>
          if rm (NStmt l) then r'
          else SCons (SWhile (rm_init rm i) l c (rm_stmts rm b) hase (rm_stmts rm e)) r'
      | STry b c => SCons (STry (rm_stmts rm b) (rm_stmts rm c)) r'
      | SBlock b => SCons (SBlock (rm_stmts rm b)) r'
      | SBreak | SContinue => SCons s r'
      end
  end.

(* Whether remove() finds something to do for one of the nodes (the return value at 194). *)
Definition hit_init (rm : gnode -> bool) (i : option (var * expr)) : bool :=
  match i with Some (x, e) => rm (NDecl x) && simple_init e | None => false end.
Fixpoint hits (rm : gnode -> bool) (ss : stmts) : bool :=
  match ss with
  | SNil => false
  | SCons s r =>
      (match s with
       | SAssign l _ _ | SExpr l _ | SReturn l _ | SAssert l _ | SThrow l (Some _) => rm (NStmt l)
       | SThrow _ None | SBreak | SContinue => false
       | SDecl _ x _ => rm (NDecl x)
       | SIf i l _ t _ b | SWhile i l _ t _ b => rm (NStmt l) || hit_init rm i || hits rm t || hits rm b
       | STry b c => hits rm b || hits rm c
       | SBlock b => hits rm b
       end) || hits rm r
  end.

(* 197-217 visitBlock, given the data-flow facts: the unused statements go, or if there are none the unreachable ones
   (the graph is not computed anew in between, so that the loop does not find more). *)
Definition dce (f : func) (glob : var -> bool) (d : dflow) : func :=
  let b := f_body f in
  let b' := if hits (unused f glob d) b then rm_stmts (unused f glob d) b else rm_stmts (unreachable f) b in
  {| f_params := f_params f; f_body := b' |}.
