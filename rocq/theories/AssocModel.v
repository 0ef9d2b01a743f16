(** Model of hilti/runtime/include/types/map.h (class Map) and hilti/runtime/include/types/set.h (class Set) with their
    iterators, on top of control::Block/Reference (hilti/runtime/include/util.h:692-825).

    [std::map]/[std::set] are modelled by their documented meaning: a sequence of nodes ordered by key. Every node has an
    identity, so that a [std] iterator is either a pointer to a node or the past-the-end position of one container object;
    using a pointer to a node that no longer exists, or a past-the-end position, is undefined behaviour. Keys and values are
    integers standing for any ordered key type and any value type; a set is a map whose values are 0. *)
From Verif Require Import Base BytesModel.
Open Scope Z_scope.

Definition ent : Type := (nat * (Z * Z))%type. (** node, key, value *)
Definition ekey (e : ent) : Z := fst (snd e).

(** std::map::find, insertion of an absent key, insert_or_assign of a present key, erase *)
Definition efind (k : Z) (es : list ent) : option ent := find (fun e => ekey e =? k) es.
Definition einsert (n : nat) (k v : Z) (es : list ent) : list ent :=
  filter (fun e => ekey e <? k) es ++ (n, (k, v)) :: filter (fun e => k <? ekey e) es.
Definition eassign (k v : Z) (es : list ent) : list ent := map (fun e => if ekey e =? k then (fst e, (k, v)) else e) es.
Definition eerase (k : Z) (es : list ent) : list ent := filter (fun e => negb (ekey e =? k)) es.
(** copying a container allocates new nodes *)
Definition erenew (n : nat) (es : list ent) : list ent := combine (seq n (length es)) (map snd es).
(** construction from an initializer list: the first of several equal keys wins (map.h:184, set.h:135-136) *)
Fixpoint ebuild (l : list (Z * Z)) (es : list ent) (n : nat) : list ent * nat :=
  match l with
  | [] => (es, n)
  | (k, v) :: l' => match efind k es with Some _ => ebuild l' es n | None => ebuild l' (einsert n k v es) (S n) end
  end.

(** A container object. [x_data]: the object its control block's [_data] points to (map.h:174, set.h:119 initialise it with
    [this]; the defaulted copy and move constructors, map.h:186-187 and set.h:133-134, take over the other's,
    util.h:719-720). *)
Record xobj := mkXO { x_ents : list ent; x_ctl : option nat; x_data : nat }.
Record xstate := mkXS { xs_objs : list (option xobj); xs_ctl : nat; xs_node : nat }.

Inductive xpos := Node (n : nat) | End (o : nat).
(** map.h:36-42, 92-98, set.h:34-39. [xi_checked] is false for map::ConstIterator, whose operator++ lacks the check for the
    end. *)
Record xiter := mkXI { xi_ref : option (nat * nat); xi_pos : xpos; xi_checked : bool }.

Definition xobj_at (st : xstate) (o : nat) : option xobj := match nth_error (xs_objs st) o with Some (Some b) => Some b | _ => None end.
Definition xput (st : xstate) (o : nat) (b : option xobj) : xstate := mkXS (upd (xs_objs st) o b) (xs_ctl st) (xs_node st).
Definition holds (c : nat) (b : option xobj) : bool :=
  match b with Some b => match x_ctl b with Some c' => Nat.eqb c c' | None => false end | None => false end.
(** util.h:778 [! _control.expired()] *)
Definition x_alive (st : xstate) (c : nat) : bool := existsb (holds c) (xs_objs st).
(** util.h:742-747: conversion to a reference creates the control block if there is none *)
Definition xref (st : xstate) (o : nat) : res (xstate * (nat * nat)) :=
  match xobj_at st o with
  | None => UB
  | Some b => match x_ctl b with
              | Some c => Ok (st, (c, x_data b))
              | None => Ok (mkXS (upd (xs_objs st) o (Some (mkXO (x_ents b) (Some (xs_ctl st)) (x_data b)))) (S (xs_ctl st)) (xs_node st),
                            (xs_ctl st, x_data b))
              end
  end.

(** The node [n], if it still exists in any container: its container, entry and the nodes behind it. *)
Fixpoint node_in (es : list ent) (n : nat) : option (Z * Z * list ent) :=
  match es with [] => None | (n', kv) :: es' => if Nat.eqb n n' then Some (kv, es') else node_in es' n end.
Fixpoint find_node (objs : list (option xobj)) (o : nat) (n : nat) : option (nat * (Z * Z * list ent)) :=
  match objs with
  | [] => None
  | b :: objs' => match match b with Some b => node_in (x_ents b) n | None => None end with
                  | Some r => Some (o, r)
                  | None => find_node objs' (S o) n
                  end
  end.
Definition pos_eqb (a b : xpos) : bool :=
  match a, b with Node n, Node m => Nat.eqb n m | End o, End p => Nat.eqb o p | _, _ => false end.
(** std::map::iterator: dereferencing and incrementing *)
Definition std_deref (st : xstate) (p : xpos) : res (Z * Z) :=
  match p with
  | End _ => UB
  | Node n => match find_node (xs_objs st) 0 n with Some (_, (kv, _)) => Ok kv | None => UB end
  end.
Definition std_next (st : xstate) (p : xpos) : res xpos :=
  match p with
  | End _ => UB
  | Node n => match find_node (xs_objs st) 0 n with
              | Some (_, (_, (n', _) :: _)) => Ok (Node n')
              | Some (o, (_, [])) => Ok (End o)
              | None => UB
              end
  end.
(** map.h:78-84, 128-136, set.h:50-56: operator*, through util.h:785-808 Reference::get *)
Definition xderef (st : xstate) (it : xiter) : res (Z * Z) :=
  match xi_ref it with
  | None => Throw InvalidIterator
  | Some (c, o) =>
      if x_alive st c then
        match xobj_at st o with
        | None => UB (* *_data refers to a destroyed object *)
        | Some _ => if pos_eqb (xi_pos it) (End o) then Throw IndexError else std_deref st (xi_pos it)
        end
      else Throw InvalidIterator
  end.
(** map.h:58-68, 112-118, set.h:58-67: operator++ *)
Definition xnext (st : xstate) (it : xiter) : res xiter :=
  match xi_ref it with
  | None => Throw IndexError
  | Some (c, o) =>
      if x_alive st c then
        if xi_checked it then
          match xobj_at st o with
          | None => UB
          | Some _ => if pos_eqb (xi_pos it) (End o) then Throw IndexError
                      else rmap (fun p => mkXI (xi_ref it) p true) (std_next st (xi_pos it))
          end
        else rmap (fun p => mkXI (xi_ref it) p false) (std_next st (xi_pos it))
      else Throw IndexError
  end.

(** Operations of a client. *)
Inductive xop :=
| XNew (l : list (Z * Z))      (* map.h:184, set.h:135-136 *)
| XCopy (o : nat)              (* map.h:186, set.h:133 *)
| XMoveNew (o : nat)           (* map.h:187, set.h:134 *)
| XAssign (d s : nat)          (* map.h:189-195, set.h:139-145 *)
| XMoveAssign (d s : nat)      (* map.h:197-203, set.h:147-153 *)
| XDestroy (o : nat)
| XContains (o : nat) (k : Z)  (* map.h:210, set.h:160 *)
| XGet (o : nat) (k : Z)       (* map.h:219-240, operator[] 261, 269, 279 *)
| XGetOpt (o : nat) (k : Z)    (* map.h:248-253 *)
| XSize (o : nat)              (* map.h:297, set.h:166 *)
| XSet (o : nat) (k v : Z)     (* map.h:281-286 index_assign *)
| XErase (o : nat) (k : Z)     (* map.h:316-324 Map::erase *)
| XSetErase (o : nat) (k : Z)  (* set.h:175-180 Set::erase *)
| XClear (o : nat)             (* map.h:303-307, set.h:186-191 *)
| XInsert (o : nat) (k : Z)    (* set.h:204-207 Set::insert(value); the returned iterator is kept *)
| XInsertHint (o h : nat) (k : Z) (* set.h:199-202 Set::insert(hint, value) *)
| XBegin (o : nat) (checked : bool) (* map.h:288-295, set.h:162 *)
| XEnd (o : nat) (checked : bool)   (* map.h:289-295, set.h:164 *)
| XNext (i : nat)
| XDeref (i : nat)
| XEq (i j : nat).             (* map.h:49-54, 103-108, set.h:75-80 *)

Inductive xobs := XONone | XOVal (x : Z) | XOEnt (e : Z * Z) | XOBool (b : bool) | XOOpt (v : option Z).

Record xmach := mkXM { xm_st : xstate; xm_its : list xiter }.
Definition xm_init : xmach := mkXM (mkXS [] 0 0) [].
Definition xm_it (m : xmach) (i : nat) : xiter := nth i (xm_its m) (mkXI None (End 0) true).

Definition xstep (m : xmach) (p : xop) : res (xmach * xobs) :=
  let st := xm_st m in
  let its := xm_its m in
  let read o (f : list ent -> res xobs) := match xobj_at st o with Some b => rmap (fun x => (m, x)) (f (x_ents b)) | None => UB end in
  let put o b := mkXM (xput st o (Some b)) its in
  let add st' r p := mkXM st' (its ++ [mkXI (Some (fst r)) p (snd r)]) in
  match p with
  | XNew l =>
      let r := ebuild l [] (xs_node st) in
      Ok (mkXM (mkXS (xs_objs st ++ [Some (mkXO (fst r) None (length (xs_objs st)))]) (xs_ctl st) (snd r)) its, XONone)
  | XCopy o =>
      match xobj_at st o with
      | Some b => Ok (mkXM (mkXS (xs_objs st ++ [Some (mkXO (erenew (xs_node st) (x_ents b)) None (x_data b))]) (xs_ctl st)
                                 (xs_node st + length (x_ents b))) its, XONone)
      | None => UB
      end
  | XMoveNew o =>
      match xobj_at st o with
      | Some b => Ok (mkXM (mkXS (upd (xs_objs st) o (Some (mkXO [] None (x_data b))) ++ [Some (mkXO (x_ents b) (x_ctl b) (x_data b))])
                                 (xs_ctl st) (xs_node st)) its, XONone)
      | None => UB
      end
  | XAssign d s =>
      match xobj_at st d, xobj_at st s with
      | Some bd, Some bs =>
          if Nat.eqb d s then Ok (m, XONone)
          else Ok (mkXM (mkXS (upd (xs_objs st) d (Some (mkXO (erenew (xs_node st) (x_ents bs)) None (x_data bd)))) (xs_ctl st)
                              (xs_node st + length (x_ents bs))) its, XONone)
      | _, _ => UB
      end
  | XMoveAssign d s =>
      match xobj_at st d, xobj_at st s with
      | Some bd, Some bs =>
          if Nat.eqb d s then Ok (m, XONone)
          else Ok (mkXM (xput (xput st s (Some (mkXO [] (x_ctl bs) (x_data bs)))) d (Some (mkXO (x_ents bs) None (x_data bd)))) its, XONone)
      | _, _ => UB
      end
  | XDestroy o => match xobj_at st o with Some _ => Ok (mkXM (xput st o None) its, XONone) | None => UB end
  | XContains o k => read o (fun es => Ok (XOBool (match efind k es with Some _ => true | None => false end)))
  | XGet o k => read o (fun es => match efind k es with Some e => Ok (XOVal (snd (snd e))) | None => Throw IndexError end)
  | XGetOpt o k => read o (fun es => Ok (XOOpt (option_map (fun e => snd (snd e)) (efind k es))))
  | XSize o => read o (fun es => Ok (XOVal (Z.of_nat (length es))))
  | XSet o k v =>
      match xobj_at st o with
      | Some b => match efind k (x_ents b) with
                  | Some _ => Ok (put o (mkXO (eassign k v (x_ents b)) (x_ctl b) (x_data b)), XONone)
                  | None => Ok (mkXM (mkXS (upd (xs_objs st) o (Some (mkXO (einsert (xs_node st) k v (x_ents b)) None (x_data b))))
                                           (xs_ctl st) (S (xs_node st))) its, XONone)
                  end
      | None => UB
      end
  | XErase o k =>
      match xobj_at st o with
      | Some b => match efind k (x_ents b) with
                  | Some _ => Ok (put o (mkXO (eerase k (x_ents b)) None (x_data b)), XOVal 1)
                  | None => Ok (m, XOVal 0)
                  end
      | None => UB
      end
  | XSetErase o k =>
      match xobj_at st o with
      | Some b => Ok (put o (mkXO (eerase k (x_ents b)) None (x_data b)), XOVal (match efind k (x_ents b) with Some _ => 1 | None => 0 end))
      | None => UB
      end
  | XClear o => match xobj_at st o with Some b => Ok (put o (mkXO [] None (x_data b)), XONone) | None => UB end
  | XInsert o k =>
      match xobj_at st o with
      | Some b =>
          let r := match efind k (x_ents b) with
                   | Some e => (st, fst e, false)
                   | None => (mkXS (upd (xs_objs st) o (Some (mkXO (einsert (xs_node st) k 0 (x_ents b)) (x_ctl b) (x_data b))))
                                   (xs_ctl st) (S (xs_node st)), xs_node st, true)
                   end in
          let* q := xref (fst (fst r)) o in
          Ok (add (fst q) (snd q, true) (Node (snd (fst r))), XOBool (snd r))
      | None => UB
      end
  | XInsertHint o h k =>
      match xobj_at st o with
      | Some b =>
          (* the hint must be an iterator into this very set *)
          if match xi_pos (xm_it m h) with
             | End o' => Nat.eqb o o'
             | Node n => match node_in (x_ents b) n with Some _ => true | None => false end
             end
          then let r := match efind k (x_ents b) with
                        | Some e => (st, fst e)
                        | None => (mkXS (upd (xs_objs st) o (Some (mkXO (einsert (xs_node st) k 0 (x_ents b)) (x_ctl b) (x_data b))))
                                        (xs_ctl st) (S (xs_node st)), xs_node st)
                        end in
               let* q := xref (fst r) o in Ok (add (fst q) (snd q, true) (Node (snd r)), XONone)
          else UB
      | None => UB
      end
  | XBegin o chk =>
      match xobj_at st o with
      | Some b => let* q := xref st o in
                  Ok (add (fst q) (snd q, chk) (match x_ents b with (n, _) :: _ => Node n | [] => End o end), XONone)
      | None => UB
      end
  | XEnd o chk => let* q := xref st o in Ok (add (fst q) (snd q, chk) (End o), XONone)
  | XNext i => let* it := xnext st (xm_it m i) in Ok (mkXM st (its ++ [it]), XONone)
  | XDeref i => let* e := xderef st (xm_it m i) in Ok (m, XOEnt e)
  | XEq i j =>
      if ref_eqb (xi_ref (xm_it m i)) (xi_ref (xm_it m j)) then Ok (m, XOBool (pos_eqb (xi_pos (xm_it m i)) (xi_pos (xm_it m j))))
      else Throw InvalidArgument
  end.
