(** Specification for C55: ownership, without reference counts. *)
From Verif Require Import Base RefModel.

(** The object exists (has been created and not been destroyed). *)
Definition alive (s : state) (o : nat) : Prop := exists ob, nth_error (hp s) o = Some (Some ob).

(** Who owns an object: a variable in scope, a raw pointer holding a reference, or a member of an existing object. *)
Definition var_owns (s : state) (v o : nat) : Prop := nth_error (vars s) v = Some (Some (Some o)).
Definition raw_owns (s : state) (r o : nat) : Prop := nth_error (raws s) r = Some o.
Definition member_owns (s : state) (x k o : nat) : Prop :=
  exists ob, nth_error (hp s) x = Some (Some ob) /\ nth_error (fields ob) k = Some (Some o).
Definition owned (s : state) (o : nat) : Prop :=
  (exists v, var_owns s v o) \/ (exists r, raw_owns s r o) \/ (exists x k, member_owns s x k o).

(** What clients must respect: expressions denote existing pointers (no null dereference, no variable out of scope), raw
    pointers are used while they own their reference. *)
Definition denotes_ptr (s : state) (p : path) : Prop := exists l, eval s p = Ok l.
Definition op_ok (s : state) (o : op) : Prop :=
  match o with
  | ONew _ | ONull => True
  | OCopy p | OMove p | OAssignNull p | ORelease p => denotes_ptr s p
  | OAssignCopy p q | OAssignMove p q | OSwap p q => denotes_ptr s p /\ denotes_ptr s q
  | ODestroy v => exists p, nth_error (vars s) v = Some (Some p)
  | OAdopt r | ONewRef r => r < length (raws s)
  end.

(** States of programs respecting this. *)
Inductive reachable : state -> Prop :=
| reach_init : reachable init
| reach_step s o s' : reachable s -> op_ok s o -> step s o = Ok s' -> reachable s'.

(** Value of a pointer variable or member, if it exists. *)
Definition value (s : state) (l : loc) : option ptr := match read s l with Ok p => Some p | _ => None end.
Definition value_of (s : state) (p : path) : option ptr := match eval s p with Ok l => value s l | _ => None end.

(** What each operation assigns: (place, new value), in order; for a new variable the place is the next variable. *)
Definition assigns (s : state) (o : op) : list (loc * ptr) :=
  let new := LVar (length (vars s)) in
  let at_ p f := match eval s p with Ok l => match value s l with Some v => f l v | None => [] end | _ => [] end in
  match o with
  | ONew k => (new, Some (length (hp s))) :: map (fun j => (LField (length (hp s)) j, None)) (seq 0 k)
  | ONull => [(new, None)]
  | OCopy p => at_ p (fun _ v => [(new, v)])
  | OMove p => at_ p (fun l v => [(l, None); (new, v)])
  | ODestroy _ => []
  | OAssignCopy p q => at_ p (fun lp _ => at_ q (fun _ w => [(lp, w)]))
  | OAssignMove p q => at_ p (fun lp _ => at_ q (fun lq w => [(lq, None); (lp, w)]))
  | OAssignNull p => at_ p (fun l _ => [(l, None)])
  | OSwap p q => at_ p (fun lp v => at_ q (fun lq w => [(lp, w); (lq, v)]))
  | ORelease p => at_ p (fun l _ => [(l, None)])
  | OAdopt r | ONewRef r => match nth_error (raws s) r with Some o => [(new, Some o)] | None => [] end
  end.
Definition loc_eqb (a b : loc) : bool :=
  match a, b with
  | LVar v, LVar w => Nat.eqb v w
  | LField o k, LField o' k' => Nat.eqb o o' && Nat.eqb k k'
  | _, _ => false
  end.
(** The value a place has after the assignments: the last one made to it, otherwise the old value. *)
Definition after (s : state) (as_ : list (loc * ptr)) (l : loc) : option ptr :=
  fold_left (fun acc (x : loc * ptr) => if loc_eqb (fst x) l then Some (snd x) else acc) as_ (value s l).
