(* The pass value-propagation of the HILTI optimizer: hilti/toolchain/src/compiler/optimizer/passes/value-propagation.cc.
   The simplifications are those of OptModel; coercions are not modelled either. *)
From Coq Require Import List Arith Bool ZArith Lia.
From Verif Require Import OptModel.
Import ListNotations.

(* 16-27 ReachingValue: an expression (a pointer: null or a node; here only constants and names can be one) and whether
   it may be propagated. *)
Inductive rexpr := RNull | RConst (l : lab) (c : Z) | RName (l : lab) (x : var).
Record rval := { rv_expr : rexpr; rv_prop : bool }.
(* Equality of pointers: that of the labels, with which the content goes along. *)
Definition rexpr_eqb (a b : rexpr) : bool :=
  match a, b with
  | RNull, RNull => true
  | RConst l c, RConst l' c' => (l =? l') && (c =? c')%Z
  | RName l x, RName l' x' => (l =? l') && (x =? x')
  | _, _ => false
  end.
Definition rval_eqb (a b : rval) : bool :=
  if negb (rv_prop a) && negb (rv_prop b) then true
  else rexpr_eqb (rv_expr a) (rv_expr b) && Bool.eqb (rv_prop a) (rv_prop b).
Definition rv_no : rval := {| rv_expr := RNull; rv_prop := false |}.
Definition stop (r : rval) : rval := {| rv_expr := rv_expr r; rv_prop := false |}.

(* 29 PropagationMap: std::map as a list of entries, one per key. *)
Definition pmap := list (var * rval).
Fixpoint look (m : pmap) (x : var) : option rval :=
  match m with
  | [] => None
  | (y, r) :: m => if x =? y then Some r else look m x
  end.
Definition erase (m : pmap) (x : var) : pmap := filter (fun p => negb (fst p =? x)) m.
Definition put (m : pmap) (x : var) (r : rval) : pmap := (x, r) :: erase m x.
(* std::map::operator== *)
Definition same_at (a b : pmap) (x : var) : bool :=
  match look a x, look b x with
  | Some r, Some r' => rval_eqb r r'
  | None, None => true
  | _, _ => false
  end.
Definition pmap_eqb (a b : pmap) : bool := forallb (same_at a b) (map fst a ++ map fst b).

(* 40-54 invalidateDependencies *)
Definition inval (x : var) (m : pmap) : pmap :=
  map (fun p => match rv_expr (snd p) with
                | RName _ y => if rv_prop (snd p) && (y =? x) then (fst p, stop (snd p)) else p
                | _ => p end) m.

(* 59-71 Invalidator, for one name *)
Definition taint (x : var) (m : pmap) : pmap :=
  let m := inval x m in
  put m x (match look m x with Some r => stop r | None => rv_no end).

(* 84-106 resolveValue.  None: the recursion does not end within k levels. *)
Fixpoint resolve_r (k : nat) (m : pmap) (e : rexpr) : option rexpr :=
  match e with
  | RNull => Some RNull
  | RConst _ _ => Some e
  | RName _ x =>
      match look m x with
      | Some r =>
          if rv_prop r then
            match rv_expr r with
            | RNull => Some e
            | e' => match k with 0 => None | S k => resolve_r k m e' end
            end
          else Some e
      | None => Some e
      end
  end.
Definition to_r (e : expr) : rexpr := match e with EConst l c => RConst l c | EName l x => RName l x | _ => RNull end.
Definition resolve (k : nat) (m : pmap) (e : expr) : option rexpr := resolve_r k m (to_r e).
Definition entry (e : rexpr) : rval := {| rv_expr := e; rv_prop := match e with RNull => false | _ => true end |}.

(* The names given for inout parameters and inout operands anywhere in an expression (127-164). *)
Fixpoint mods (e : expr) : list var :=
  match e with
  | EConst _ _ | EName _ _ => []
  | EUn _ e | ENot e => mods e
  | EBin _ a b | EAnd a b | EOr a b => mods a ++ mods b
  | EUpd _ x e => x :: mods e
  | ECall _ a => mods_args a
  end
with mods_args (a : args) : list var :=
  match a with
  | ANil => []
  | AIn e a => mods e ++ mods_args a
  | AInOut x a => x :: mods_args a
  end.
Definition taints (xs : list var) (m : pmap) : pmap := fold_left (fun m x => taint x m) xs m.

(* 73-166 TransferVisitor, for the node of an expression, an assignment, a declaration. *)
Inductive vnode := VExpr (e : expr) | VAssign (x : var) (e : expr) | VDecl (x : var) (e : option expr).
Definition vtransfer (k : nat) (v : vnode) (m : pmap) : option pmap :=
  match v with
  | VExpr e => Some (taints (mods e) m)
  | VAssign x e =>
      let m := inval x m in
      match resolve k m e with
      | Some r => Some (taints (mods e) (put m x (entry r)))
      | None => None
      end
  | VDecl x (Some e) =>
      match resolve k m e with
      | Some r => Some (taints (mods e) (put m x (entry r)))
      | None => None
      end
  | VDecl x None => Some m
  end.

(* What TransferVisitor finds at the nodes that statements contribute. *)
Definition init_vnodes (i : option (var * expr)) : list (gnode * vnode) :=
  match i with Some (x, e) => [(NDecl x, VDecl x (Some e))] | None => [] end.
Fixpoint vnodes_stmt (s : stmt) : list (gnode * vnode) :=
  match s with
  | SAssign l x e => [(NStmt l, VAssign x e)]
  | SExpr l e | SAssert l e => [(NStmt l, VExpr e)]
  | SDecl _ x i => [(NDecl x, VDecl x i)]
  | SIf i l c t _ f => init_vnodes i ++ (NStmt l, VExpr c) :: vnodes t ++ vnodes f
  | SWhile i l c b _ e => init_vnodes i ++ (NStmt l, VExpr c) :: vnodes b ++ vnodes e
  | STry b c => vnodes b ++ vnodes c
  | SThrow l (Some e) | SReturn l (Some e) => [(NStmt l, VExpr e)]
  | SThrow _ None | SBreak | SContinue => []
  | SReturn l None => [(NStmt l, VExpr (EConst 0 0%Z))]
  | SBlock b => vnodes b
  end
with vnodes (ss : stmts) : list (gnode * vnode) :=
  match ss with
  | SNil => []
  | SCons s r => vnodes_stmt s ++ vnodes r
  end.

(* cfg.cc:156-179 CFG::postorder: the nodes visited and the nodes sorted so far.  The depth is bounded by the number of
   nodes, which is always enough. *)
Fixpoint dfs (k : nat) (g : graph) (n : gnode) (st : list gnode * list gnode) : list gnode * list gnode :=
  if memn n (fst st) then st
  else match k with
       | 0 => st
       | S k =>
           let (visited, sorted) := fold_left (fun st m => dfs k g m st) (downstream g n) (n :: fst st, snd st) in
           (visited, sorted ++ [n])
       end.
Definition postorder (g : graph) : list gnode := snd (dfs (length (g_nodes g)) g NStart ([], [])).
Definition rpo (g : graph) : list gnode := tl (rev (postorder g)).

Section Vp.
Variable f : func.
Variable d : dflow.   (* the facts CFG::dataflow() *)
Variable k : nat.     (* bound on the depth of resolveValue *)
Let g := build f.

(* 253-264 transfer *)
Definition kill_all (xs : list var) (m : pmap) : pmap := fold_left (fun m x => erase (inval x m) x) xs m.
Definition vstep (n : gnode) (m : pmap) : option pmap :=
  match n with
  | NEnd _ _ => Some (kill_all (map fst (d_kill d n)) m)
  | _ => match find (fun p => gnode_eqb (fst p) n) (vnodes (f_body f)) with
         | Some (_, v) => vtransfer k v m
         | None => Some m
         end
  end.

(* 285-303 the meet: try_emplace, and if there is an entry that differs it is not propagated *)
Definition meet1 (m : pmap) (p : var * rval) : pmap :=
  match look m (fst p) with
  | None => put m (fst p) (snd p)
  | Some r => if rval_eqb r (snd p) then m else put m (fst p) (stop r)
  end.
Definition meet (outs : list pmap) : pmap := fold_left (fun m o => fold_left meet1 o m) outs [].

(* 31-34 AnalysisResult; `in' has no entry for nodes that were never visited. *)
Record vres := { v_in : gnode -> option pmap; v_out : gnode -> pmap }.
Definition setn {A} (h : gnode -> A) (n : gnode) (v : A) : gnode -> A := fun m => if gnode_eqb m n then v else h m.

(* 266-330 populateDataflow: the loop over the worklist.  None: not finished within the bounds. *)
Definition push (wl : list gnode) (n : gnode) : list gnode := if memn n wl then wl else wl ++ [n].
Fixpoint vloop (fuel : nat) (wl : list gnode) (r : vres) : option vres :=
  match wl with
  | [] => Some r
  | n :: wl =>
      match fuel with
      | 0 => None
      | S fuel =>
          let new_in := meet (map (v_out r) (upstream g n)) in
          match vstep n new_in with
          | None => None
          | Some new_out =>
              let r1 := {| v_in := setn (v_in r) n (Some new_in); v_out := v_out r |} in
              if pmap_eqb (v_out r n) new_out then vloop fuel wl r1
              else vloop fuel (fold_left push (downstream g n) wl)
                     {| v_in := v_in r1; v_out := setn (v_out r1) n new_out |}
          end
      end
  end.
(* 396-401 the parameters are not propagated.  `order' is the reverse postorder without the start node (269-274). *)
Definition v0 : vres :=
  {| v_in := fun _ => None;
     v_out := fun n => if gnode_eqb n NStart then map (fun p => (fst p, rv_no)) (f_params f) else [] |}.
Definition vsolve (fuel : nat) (order : list gnode) : option vres := vloop fuel order v0.

(* 201-243 Replacer, for a name in the expression of a node.  A name that is an inout argument or operand is visited as
   well, but its entry at the end of the node never propagates, so that it is never replaced. *)
Section Repl.
Variable r : vres.
Definition repl_name (n : gnode) (l : lab) (x : var) : expr :=
  match v_in r n with
  | Some m =>
      match look m x, look (v_out r n) x with
      | Some a, Some b =>
          if rval_eqb a b && rv_prop a then
            match rv_expr a with RNull => EName l x | RConst l' c => EConst l' c | RName l' y => EName l' y end
          else EName l x
      | _, _ => EName l x
      end
  | None => EName l x
  end.
Fixpoint repl (n : gnode) (e : expr) : expr :=
  match e with
  | EConst _ _ => e
  | EName l x => repl_name n l x
  | EUn o e => EUn o (repl n e)
  | EBin o a b => EBin o (repl n a) (repl n b)
  | ENot e => ENot (repl n e)
  | EAnd a b => EAnd (repl n a) (repl n b)
  | EOr a b => EOr (repl n a) (repl n b)
  | EUpd o x e => EUpd o x (repl n e)
  | ECall h a => ECall h (repl_args n a)
  end
with repl_args (n : gnode) (a : args) : args :=
  match a with
  | ANil => ANil
  | AIn e a => AIn (repl n e) (repl_args n a)
  | AInOut x a => AInOut x (repl_args n a)
  end.
Definition repl_init (i : option (var * expr)) : option (var * expr) :=
  match i with Some (x, e) => Some (x, repl (NDecl x) e) | None => None end.
Fixpoint repl_stmt (s : stmt) : stmt :=
  match s with
  | SAssign l x e => SAssign l x (repl (NStmt l) e)
  | SExpr l e => SExpr l (repl (NStmt l) e)
  | SDecl l x (Some e) => SDecl l x (Some (repl (NDecl x) e))
  | SDecl l x None => SDecl l x None
  | SIf i l c t hasf b => SIf (repl_init i) l (repl (NStmt l) c) (repl_stmts t) hasf (repl_stmts b)
  | SWhile i l c b hase e => SWhile (repl_init i) l (repl (NStmt l) c) (repl_stmts b) hase (repl_stmts e)
  | STry b c => STry (repl_stmts b) (repl_stmts c)
  | SThrow l (Some e) => SThrow l (Some (repl (NStmt l) e))
  | SThrow l None => SThrow l None
  | SReturn l (Some e) => SReturn l (Some (repl (NStmt l) e))
  | SReturn l None => SReturn l None
  | SAssert l e => SAssert l (repl (NStmt l) e)
  | SBreak => SBreak
  | SContinue => SContinue
  | SBlock b => SBlock (repl_stmts b)
  end
with repl_stmts (ss : stmts) : stmts :=
  match ss with
  | SNil => SNil
  | SCons s r => SCons (repl_stmt s) (repl_stmts r)
  end.

(* 332-375 propagateFunctionReturn, on the body after replacement.  The last statement; the statement with a label. *)
Fixpoint last_of (ss : stmts) : option stmt :=
  match ss with SNil => None | SCons s SNil => Some s | SCons _ r => last_of r end.
Fixpoint assign_at (l : lab) (ss : stmts) : option (var * expr) :=
  match ss with
  | SNil => None
  | SCons s r =>
      match match s with
            | SAssign l' x e => if l =? l' then Some (x, e) else None
            | SIf _ _ _ a _ b | SWhile _ _ _ a _ b | STry a b =>
                match assign_at l a with Some p => Some p | None => assign_at l b end
            | SBlock a => assign_at l a
            | _ => None
            end with
      | Some p => Some p
      | None => assign_at l r
      end
  end.
Fixpoint remove_at (l : lab) (ss : stmts) : stmts :=
  match ss with
  | SNil => SNil
  | SCons s r =>
      match s with
      | SAssign l' _ _ => if l =? l' then remove_at l r else SCons s (remove_at l r)
      | SIf i l' c a h b => SCons (SIf i l' c (remove_at l a) h (remove_at l b)) (remove_at l r)
      | SWhile i l' c a h b => SCons (SWhile i l' c (remove_at l a) h (remove_at l b)) (remove_at l r)
      | STry a b => SCons (STry (remove_at l a) (remove_at l b)) (remove_at l r)
      | SBlock a => SCons (SBlock (remove_at l a)) (remove_at l r)
      | _ => SCons s (remove_at l r)
      end
  end.
Fixpoint set_last (s' : stmt) (ss : stmts) : stmts :=
  match ss with SNil => SNil | SCons _ SNil => SCons s' SNil | SCons s r => SCons s (set_last s' r) end.
Definition ret_prop (b : stmts) : stmts :=
  match last_of b with
  | Some (SReturn l (Some (EName _ x))) =>
      match upstream g (NStmt l) with
      | [NStmt l'] =>
          match assign_at l' b with
          | Some (_, e) =>
              if mem x (t_gen (transfer_of f (NStmt l'))) && mem x (map fst (d_kill d (NStmt l')))
              then remove_at l' (set_last (SReturn l (Some e)) b)
              else b
          | None => b
          end
      | _ => b
      end
  | _ => b
  end.

(* 377-390 applyPropagation *)
Definition vprop : func := {| f_params := f_params f; f_body := ret_prop (repl_stmts (f_body f)) |}.
End Repl.
End Vp.
