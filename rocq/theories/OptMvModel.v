(* The pass move-last-uses of the HILTI optimizer: hilti/toolchain/src/compiler/optimizer/passes/move-last-uses.cc.
   The simplifications are those of OptModel: values have no aliasing type (so that maybe_alias is empty and no parameter is
   skipped for its type), no structs (no member calls), no tuple assignment, no coercion.  There are no moves in the code yet. *)
From Coq Require Import List Arith Bool ZArith Lia.
From Verif Require Import OptModel OptModel2.
Import ListNotations.

(* 17 LivenessSet: std::set<Declaration*>, as a list of which only the members count. *)
Definition vset := list var.
Definition sub_vset (a b : vset) : bool := forallb (fun x => mem x b) a.
Definition eq_vset (a b : vset) : bool := sub_vset a b && sub_vset b a.

(* 19-22 AnalysisResult.  `in' has an (empty) entry for every node that is asked for; `out' has entries for the nodes that were processed. *)
Record lres := { l_in : gnode -> vset; l_out : gnode -> option vset }.
Definition l0 : lres := {| l_in := fun _ => []; l_out := fun _ => None |}.

Section Live.
Variable g : graph.
Variable tr : gnode -> transfer.

(* 47-66 _transfer, the new set *)
Definition live_before (n : gnode) (out : vset) : vset :=
  nodup Nat.eq_dec (filter (fun x => negb (mem x (t_write (tr n)))) out ++ t_read (tr n)).
(* 86-94 the union over the successors *)
Definition live_after (r : lres) (n : gnode) : vset := nodup Nat.eq_dec (flat_map (l_in r) (downstream g n)).

(* 71-114 _analyzeLiveness: the loop over the worklist.  None: not finished within the bound. *)
Fixpoint lloop (fuel : nat) (wl : list gnode) (r : lres) : option lres :=
  match wl with
  | [] => Some r
  | n :: wl =>
      match fuel with
      | 0 => None
      | S fuel =>
          let out := live_after r n in
          let new_in := live_before n out in
          let r1 := {| l_in := l_in r; l_out := setn (l_out r) n (Some out) |} in
          if eq_vset new_in (l_in r n) then lloop fuel wl r1
          else lloop fuel (fold_left push (upstream g n) wl) {| l_in := setn (l_in r1) n new_in; l_out := l_out r1 |}
      end
  end.
End Live.

(* 71-75: the worklist begins with the postorder. *)
Definition lsolve (f : func) (fuel : nat) : option lres := lloop (build f) (transfer_of f) fuel (postorder (build f)) l0.

(* 157-227 _walk: has the target been found yet; its name is to be moved; it was found again (target = nullptr, to_move = {}).
   The name in front of an update (x += e) is found as well, but to mark it has no effect: it is modified in place.  It has no label here. *)
Inductive walked := Searching | Found (l : option lab) | GivenUp.
Definition find_name (l : option lab) (w : walked) : walked :=
  match w with Searching => Found l | Found _ => GivenUp | GivenUp => GivenUp end.
Section Walk.
Variable x : var.   (* target *)
Fixpoint walk (e : expr) (w : walked) : walked :=
  match e with
  | EConst _ _ => w
  | EName l y => if y =? x then find_name (Some l) w else w
  | EUn _ e | ENot e => walk e w
  | EBin _ a b | EAnd a b | EOr a b => walk b (walk a w)
  | EUpd _ y e => walk e (if y =? x then find_name None w else w)
  | ECall _ a => walk_args a w
  end
with walk_args (a : args) (w : walked) : walked :=   (* 142-155 _walkArgs *)
  match a with
  | ANil => w
  | AIn e a => walk_args a (walk e w)
  | AInOut _ a => walk_args a w
  end.
End Walk.
(* 131-140 _markMovableInNode: the label of the name to move, if any *)
Definition mark (x : var) (e : expr) : list lab := match walk x e Searching with Found (Some l) => [l] | _ => [] end.

(* The expression below a node that _walk looks at: of an assignment the right side (185-188), of a return statement nothing (191-192). *)
Definition walked_init (i : option (var * expr)) : list (gnode * expr) :=
  match i with Some (x, e) => [(NDecl x, e)] | None => [] end.
Fixpoint walked_stmt (s : stmt) : list (gnode * expr) :=
  match s with
  | SAssign l _ e | SExpr l e | SAssert l e => [(NStmt l, e)]
  | SDecl _ x (Some e) => [(NDecl x, e)]
  | SDecl _ _ None => []
  | SIf i l c t _ f => walked_init i ++ (NStmt l, c) :: walked_stmts t ++ walked_stmts f
  | SWhile i l c b _ e => walked_init i ++ (NStmt l, c) :: walked_stmts b ++ walked_stmts e
  | STry b c => walked_stmts b ++ walked_stmts c
  | SThrow l (Some e) => [(NStmt l, e)]
  | SThrow _ None => []
  | SReturn _ _ | SBreak | SContinue => []
  | SBlock b => walked_stmts b
  end
with walked_stmts (ss : stmts) : list (gnode * expr) :=
  match ss with
  | SNil => []
  | SCons s r => walked_stmt s ++ walked_stmts r
  end.

(* 116-129 _applyLastUse with 131-133: only local variables. *)
Definition moves_at (f : func) (r : lres) (p : gnode * expr) : list lab :=
  match l_out r (fst p) with
  | Some out =>
      flat_map (fun x => if negb (mem x out) && mem x (decls (f_body f)) then mark x (snd p) else []) (t_read (transfer_of f (fst p)))
  | None => []
  end.
(* 42-45, 236-239: the names that become moves. *)
Definition moveable (f : func) (r : lres) : list lab := flat_map (moves_at f r) (walked_stmts (f_body f)).
