(** Specification for C42 and C43: containers are finite maps kept as lists of (key, value) with increasing keys; an iterator
    is a container, the epoch of the container it was made in, and a key (or the end). An epoch ends when the container is
    assigned, cleared, or loses or (maps) gains a key. *)
From Verif Require Import Base BytesModel BytesSpec AssocModel.
Open Scope Z_scope.

Definition lookup (m : list (Z * Z)) (k : Z) : option Z := option_map snd (find (fun e => fst e =? k) m).
Definition put (m : list (Z * Z)) (k v : Z) : list (Z * Z) :=
  filter (fun e => fst e <? k) m ++ (k, v) :: filter (fun e => k <? fst e) m.
Definition del (m : list (Z * Z)) (k : Z) : list (Z * Z) := filter (fun e => negb (fst e =? k)) m.
Definition first_after (m : list (Z * Z)) (k : Z) : option Z := option_map fst (find (fun e => k <? fst e) m).
Fixpoint build (l : list (Z * Z)) (m : list (Z * Z)) : list (Z * Z) :=
  match l with [] => m | (k, v) :: l' => build l' (match lookup m k with Some _ => m | None => put m k v end) end.

(** [y_iter]: false for containers created by copying or moving another one (see the contract). *)
Record yobj := mkYO { y_map : list (Z * Z); y_epoch : nat; y_iter : bool }.
Record yiter := mkYI { yi_obj : nat; yi_epoch : nat; yi_key : option Z; yi_checked : bool }.
Record ymach := mkYM { ym_objs : list (option yobj); ym_its : list yiter }.
Definition ym_init := mkYM [] [].
Definition yget (m : ymach) (o : nat) : option yobj := match nth_error (ym_objs m) o with Some (Some b) => Some b | _ => None end.
Definition yput (m : ymach) (o : nat) (b : option yobj) : ymach := mkYM (upd (ym_objs m) o b) (ym_its m).
Definition ym_it (m : ymach) (i : nat) : yiter := nth i (ym_its m) (mkYI 0 0 None true).
Definition yadd (m : ymach) (i : yiter) : ymach := mkYM (ym_objs m) (ym_its m ++ [i]).
(** The iterator still is valid. *)
Definition ylive (m : ymach) (i : yiter) : bool :=
  match yget m (yi_obj i) with Some b => Nat.eqb (y_epoch b) (yi_epoch i) | None => false end.
Definition has_iters (m : ymach) (o : nat) : Prop := exists i, In i (ym_its m) /\ yi_obj i = o /\ ylive m i = true.

(** Contract: existing containers and iterators;
    - no iterators are taken from containers that were created by copy or move construction;
    - a container is moved from only while it has no valid iterators;
    - a const map iterator at the end is not incremented; hints to insert are valid for that set;
    - of two iterators that are compared at least one is valid. *)
Definition xop_ok (m : ymach) (p : xop) : Prop :=
  let ob o := yget m o <> None in
  let itb o := match yget m o with Some b => y_iter b = true | None => False end in
  let itr i := (i < length (ym_its m))%nat in
  match p with
  | XNew _ => True
  | XCopy o | XDestroy o | XContains o _ | XGet o _ | XGetOpt o _ | XSize o | XSet o _ _ | XErase o _ | XSetErase o _ | XClear o => ob o
  | XMoveNew o => ob o /\ ~ has_iters m o
  | XAssign d s => ob d /\ ob s
  | XMoveAssign d s => ob d /\ ob s /\ (d <> s -> ~ has_iters m s)
  | XInsert o _ | XBegin o _ | XEnd o _ => itb o
  | XInsertHint o h _ => itb o /\ itr h /\ yi_obj (ym_it m h) = o /\ ylive m (ym_it m h) = true
  | XNext i => itr i /\ (yi_checked (ym_it m i) = false -> ylive m (ym_it m i) = true -> yi_key (ym_it m i) <> None)
  | XDeref i => itr i
  | XEq i j => itr i /\ itr j /\ (ylive m (ym_it m i) = true \/ ylive m (ym_it m j) = true)
  end.

Definition ystep (m : ymach) (p : xop) : res (ymach * xobs) :=
  let read o (f : list (Z * Z) -> res xobs) := match yget m o with Some b => rmap (fun x => (m, x)) (f (y_map b)) | None => UB end in
  let next o b l := yput m o (Some (mkYO l (S (y_epoch b)) (y_iter b))) in (* new content, iterators become invalid *)
  let same o b l := yput m o (Some (mkYO l (y_epoch b) (y_iter b))) in     (* new content, iterators stay valid *)
  match p with
  | XNew l => Ok (mkYM (ym_objs m ++ [Some (mkYO (build l []) 0 true)]) (ym_its m), XONone)
  | XCopy o => match yget m o with
               | Some b => Ok (mkYM (ym_objs m ++ [Some (mkYO (y_map b) 0 false)]) (ym_its m), XONone)
               | None => UB
               end
  | XMoveNew o => match yget m o with
                  | Some b => Ok (mkYM (ym_objs (same o b []) ++ [Some (mkYO (y_map b) 0 false)]) (ym_its m), XONone)
                  | None => UB
                  end
  | XAssign d s => match yget m d, yget m s with
                   | Some bd, Some bs => Ok (if Nat.eqb d s then m else next d bd (y_map bs), XONone)
                   | _, _ => UB
                   end
  | XMoveAssign d s => match yget m d, yget m s with
                       | Some bd, Some bs =>
                           Ok (if Nat.eqb d s then m else yput (same s bs []) d (Some (mkYO (y_map bs) (S (y_epoch bd)) (y_iter bd))), XONone)
                       | _, _ => UB
                       end
  | XDestroy o => Ok (yput m o None, XONone)
  | XContains o k => read o (fun l => Ok (XOBool (match lookup l k with Some _ => true | None => false end)))
  | XGet o k => read o (fun l => match lookup l k with Some v => Ok (XOVal v) | None => Throw IndexError end)
  | XGetOpt o k => read o (fun l => Ok (XOOpt (lookup l k)))
  | XSize o => read o (fun l => Ok (XOVal (Z.of_nat (length l))))
  | XSet o k v => match yget m o with
                  | Some b => Ok (match lookup (y_map b) k with
                                  | Some _ => same o b (put (y_map b) k v)
                                  | None => next o b (put (y_map b) k v)
                                  end, XONone)
                  | None => UB
                  end
  | XErase o k => match yget m o with
                  | Some b => Ok (match lookup (y_map b) k with
                                  | Some _ => (next o b (del (y_map b) k), XOVal 1)
                                  | None => (m, XOVal 0)
                                  end)
                  | None => UB
                  end
  | XSetErase o k => match yget m o with
                     | Some b => Ok (next o b (del (y_map b) k), XOVal (match lookup (y_map b) k with Some _ => 1 | None => 0 end))
                     | None => UB
                     end
  | XClear o => match yget m o with Some b => Ok (next o b [], XONone) | None => UB end
  | XInsert o k => match yget m o with
                   | Some b => Ok (match lookup (y_map b) k with
                                   | Some _ => (yadd m (mkYI o (y_epoch b) (Some k) true), XOBool false)
                                   | None => (yadd (same o b (put (y_map b) k 0)) (mkYI o (y_epoch b) (Some k) true), XOBool true)
                                   end)
                   | None => UB
                   end
  | XInsertHint o h k => match yget m o with
                         | Some b => Ok (match lookup (y_map b) k with
                                         | Some _ => yadd m (mkYI o (y_epoch b) (Some k) true)
                                         | None => yadd (same o b (put (y_map b) k 0)) (mkYI o (y_epoch b) (Some k) true)
                                         end, XONone)
                         | None => UB
                         end
  | XBegin o c => match yget m o with
                  | Some b => Ok (yadd m (mkYI o (y_epoch b) (option_map fst (hd_error (y_map b))) c), XONone)
                  | None => UB
                  end
  | XEnd o c => match yget m o with Some b => Ok (yadd m (mkYI o (y_epoch b) None c), XONone) | None => UB end
  | XNext i =>
      let it := ym_it m i in
      match yget m (yi_obj it) with
      | Some b => if Nat.eqb (y_epoch b) (yi_epoch it)
                  then match yi_key it with
                       | Some k => Ok (yadd m (mkYI (yi_obj it) (yi_epoch it) (first_after (y_map b) k) (yi_checked it)), XONone)
                       | None => Throw IndexError
                       end
                  else Throw IndexError
      | None => Throw IndexError
      end
  | XDeref i =>
      let it := ym_it m i in
      match yget m (yi_obj it) with
      | Some b => if Nat.eqb (y_epoch b) (yi_epoch it)
                  then match yi_key it with
                       | Some k => match lookup (y_map b) k with Some v => Ok (m, XOEnt (k, v)) | None => UB end
                       | None => Throw IndexError
                       end
                  else Throw InvalidIterator
      | None => Throw InvalidIterator
      end
  | XEq i j =>
      let a := ym_it m i in let b := ym_it m j in
      if Nat.eqb (yi_obj a) (yi_obj b) && Nat.eqb (yi_epoch a) (yi_epoch b)
      then Ok (m, XOBool (match yi_key a, yi_key b with Some x, Some y => x =? y | None, None => true | _, _ => false end))
      else Throw InvalidArgument
  end.

Fixpoint xtrace (m : xmach) (ps : list xop) : list (res xobs) :=
  match ps with [] => [] | p :: ps' => res_obs (xstep m p) :: xtrace (res_state m (xstep m p)) ps' end.
Fixpoint ytrace (m : ymach) (ps : list xop) : list (res xobs) :=
  match ps with [] => [] | p :: ps' => res_obs (ystep m p) :: ytrace (res_state m (ystep m p)) ps' end.
Fixpoint xprog_ok (m : ymach) (ps : list xop) : Prop :=
  match ps with [] => True | p :: ps' => xop_ok m p /\ xprog_ok (res_state m (ystep m p)) ps' end.
Fixpoint yrun (m : ymach) (ps : list xop) : ymach :=
  match ps with [] => m | p :: ps' => yrun (res_state m (ystep m p)) ps' end.
