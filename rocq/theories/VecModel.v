(** Model of hilti/runtime/include/types/vector.h (class Vector and its iterators).

    Elements are integers standing for values of an arbitrary element type; [dflt] is the value default-constructed
    elements have (vector.h:84-109). [std::vector] is modelled by its documented meaning with a maximum size of
    [vmax] elements; growing beyond throws std::length_error. *)
From Verif Require Import Base BytesModel.
Open Scope Z_scope.

Section Vec.
Variable dflt : Z.

Definition vmax : Z := 2 ^ 60.
Definition vlen (v : list Z) : Z := Z.of_nat (length v).

(** vector.h:311-316 front, 324-329 back *)
Definition vfront (v : list Z) : res Z := match v with [] => Throw IndexError | x :: _ => Ok x end.
Definition vback (v : list Z) : res Z := match v with [] => Throw IndexError | _ => Ok (last v dflt) end.
(** vector.h:336-341 pop_back *)
Definition vpop (v : list Z) : res (list Z) := match v with [] => Throw IndexError | _ => Ok (removelast v) end.
(** vector.h:428-434 operator[] (also 442-448, 456-462): [data()[i]] is undefined behind the end *)
Definition raw_get (v : list Z) (i : Z) : res Z := match nth_error v (Z.to_nat i) with Some x => Ok x | None => UB end.
Definition vget (v : list Z) (i : Z) : res Z := if vlen v <=? i then Throw IndexError else raw_get v i.
(** vector.h:363-373 sub(start, end), 381-388 sub(end); [std::copy] of a range inside the vector *)
Definition copy_range (v : list Z) (s e : Z) : res (list Z) :=
  if (s <=? e) && (e <=? vlen v) then Ok (firstn (Z.to_nat (e - s)) (skipn (Z.to_nat s) v)) else UB.
Definition vsub (v : list Z) (s e : Z) : res (list Z) :=
  if (e <=? s) || (vlen v <=? s) then Ok []
  else copy_range v s (if vlen v <=? e then vlen v else e).
Definition vsub_to (v : list Z) (e : Z) : res (list Z) := copy_range v 0 (if vlen v <=? e then vlen v else e).
(** std::vector::resize *)
Definition resize (v : list Z) (n : Z) : res (list Z) :=
  if vmax <? n then Throw LogicError
  else Ok (firstn (Z.to_nat n) v ++ repeat dflt (Z.to_nat n - length v)).
(** vector.h:472-477 assign(i, x); [i + 1] is computed in uint64_t *)
Definition raw_set (v : list Z) (i : Z) (x : Z) : res (list Z) :=
  if i <? vlen v then Ok (upd v (Z.to_nat i) x) else UB.
Definition vassign (v : list Z) (i x : Z) : res (list Z) :=
  let* v' := (if vlen v <=? i then resize v ((i + 1) mod 2 ^ 64) else Ok v) in raw_set v' i x.
(** vector.h:509-516 insert(pos, value) given the iterator's index *)
Definition vinsert (v : list Z) (i x : Z) : res (list Z) :=
  if vlen v <? i then Throw InvalidIterator
  else Ok (firstn (Z.to_nat i) v ++ x :: skipn (Z.to_nat i) v).

(** * Objects and iterators; as for bytes (BytesModel.v). The control block is never reset (vector.h:298-299, 399-421
    leave it alone), [_data] always is the object itself (vector.h:550). *)
Record vobj := mkVO { v_data : list Z; v_ctl : option nat }.
Record vstate := mkVS { vs_objs : list (option vobj); vs_next : nat }.
(** vector.h:122-139, 195-211 *)
Record viter := mkVI { vi_ref : option (nat * nat); vi_index : Z }.

Definition vobj_at (st : vstate) (o : nat) : option vobj := match nth_error (vs_objs st) o with Some (Some b) => Some b | _ => None end.
Definition vput (st : vstate) (o : nat) (b : option vobj) : vstate := mkVS (upd (vs_objs st) o b) (vs_next st).
Definition vref (st : vstate) (o : nat) : res (vstate * nat) :=
  match vobj_at st o with
  | None => UB
  | Some b => match v_ctl b with
              | Some c => Ok (st, c)
              | None => Ok (mkVS (upd (vs_objs st) o (Some (mkVO (v_data b) (Some (vs_next st))))) (S (vs_next st)), vs_next st)
              end
  end.
Definition v_alive (st : vstate) (c : nat) : bool :=
  existsb (fun b => match b with Some b => match v_ctl b with Some c' => Nat.eqb c c' | None => false end | None => false end)
          (vs_objs st).
(** vector.h:635-655, 671-680 operator* *)
Definition vderef (st : vstate) (it : viter) : res Z :=
  match vi_ref it with
  | None => Throw InvalidIterator
  | Some (c, o) =>
      if v_alive st c then
        match vobj_at st o with
        | Some b => if vlen (v_data b) <=? vi_index it then Throw InvalidIterator else raw_get (v_data b) (vi_index it)
        | None => UB
        end
      else Throw InvalidIterator
  end.

(** Operations of a client. *)
Inductive vop :=
| VNew (l : list Z)                       (* vector.h:301 *)
| VCopy (o : nat)                         (* 298 *)
| VMove (o : nat) (rest : list Z)         (* 299; content of the source afterwards is unspecified *)
| VAssign (d s : nat)                     (* 399-406 *)
| VMoveAssign (d s : nat) (rest : list Z) (* 416-421 *)
| VPush (o : nat) (x : Z)                 (* std::vector::push_back *)
| VClear (o : nat)
| VPop (o : nat) | VFront (o : nat) | VBack (o : nat) | VSize (o : nat)
| VGet (o : nat) (i : Z) | VSet (o : nat) (i x : Z) | VSub (o : nat) (s e : Z) | VSubTo (o : nat) (e : Z)
| VConcat (d s : nat)                     (* 497-500 operator+= *)
| VDestroy (o : nat)
| VIter (o : nat) (i : Z)                 (* begin, end: 518-525 *)
| VIterAt (o : nat) (i : Z)               (* 349-354 *)
| VNext (k : nat)                         (* 144-147 *)
| VDeref (k : nat)
| VEq (a b : nat) | VLt (a b : nat)       (* 155-185 *)
| VInsert (o k : nat) (x : Z).            (* 509-516; the returned iterator is [pos] *)

Inductive vobs := VONone | VOVal (x : Z) | VOBool (b : bool) | VOList (l : list Z).

Record vmach := mkVM { vm_st : vstate; vm_its : list viter }.
Definition vm_init : vmach := mkVM (mkVS [] 0) [].
Definition vm_it (m : vmach) (k : nat) : viter := nth k (vm_its m) (mkVI None 0).

Definition vstep (m : vmach) (p : vop) : res (vmach * vobs) :=
  let st := vm_st m in
  let its := vm_its m in
  let new l := mkVM (mkVS (vs_objs st ++ [Some (mkVO l None)]) (vs_next st)) its in
  let read o (f : list Z -> res vobs) := match vobj_at st o with Some b => let* x := f (v_data b) in Ok (m, x) | None => UB end in
  let write o (f : list Z -> res (list Z)) :=
    match vobj_at st o with
    | Some b => let* l := f (v_data b) in Ok (mkVM (vput st o (Some (mkVO l (v_ctl b)))) its, VONone)
    | None => UB
    end in
  let cmp a b (f : Z -> Z -> bool) :=
    if ref_eqb (vi_ref (vm_it m a)) (vi_ref (vm_it m b)) then Ok (m, VOBool (f (vi_index (vm_it m a)) (vi_index (vm_it m b))))
    else Throw InvalidArgument in
  match p with
  | VNew l => Ok (new l, VONone)
  | VCopy o => match vobj_at st o with Some b => Ok (new (v_data b), VONone) | None => UB end
  | VMove o rest =>
      match vobj_at st o with
      | Some b => Ok (mkVM (mkVS (upd (vs_objs st) o (Some (mkVO rest (v_ctl b))) ++ [Some (mkVO (v_data b) None)]) (vs_next st)) its, VONone)
      | None => UB
      end
  | VAssign d s =>
      match vobj_at st s with
      | Some b => if Nat.eqb d s then Ok (m, VONone) else write d (fun _ => Ok (v_data b))
      | None => UB
      end
  | VMoveAssign d s rest =>
      match vobj_at st d, vobj_at st s with
      | Some bd, Some b =>
          if Nat.eqb d s then write d (fun _ => Ok rest)
          else Ok (mkVM (vput (vput st s (Some (mkVO rest (v_ctl b)))) d (Some (mkVO (v_data b) (v_ctl bd)))) its, VONone)
      | _, _ => UB
      end
  | VPush o x => write o (fun l => Ok (l ++ [x]))
  | VClear o => write o (fun _ => Ok [])
  | VPop o => write o vpop
  | VFront o => read o (fun l => rmap VOVal (vfront l))
  | VBack o => read o (fun l => rmap VOVal (vback l))
  | VSize o => read o (fun l => Ok (VOVal (vlen l)))
  | VGet o i => read o (fun l => rmap VOVal (vget l i))
  | VSet o i x => write o (fun l => vassign l i x)
  | VSub o s e => read o (fun l => rmap VOList (vsub l s e))
  | VSubTo o e => read o (fun l => rmap VOList (vsub_to l e))
  | VConcat d s =>
      match vobj_at st s with
      | Some b => if Nat.eqb d s then UB (* std::vector::insert with iterators into itself *) else write d (fun l => Ok (l ++ v_data b))
      | None => UB
      end
  | VDestroy o => match vobj_at st o with Some _ => Ok (mkVM (vput st o None) its, VONone) | None => UB end
  | VIter o i => let* r := vref st o in Ok (mkVM (fst r) (its ++ [mkVI (Some (snd r, o)) i]), VONone)
  | VIterAt o i =>
      match vobj_at st o with
      | Some b => if vlen (v_data b) <=? i then Throw IndexError
                  else let* r := vref st o in Ok (mkVM (fst r) (its ++ [mkVI (Some (snd r, o)) i]), VONone)
      | None => UB
      end
  | VNext k => let i := vi_index (vm_it m k) + 1 in
               if 2 ^ 64 <=? i then Throw Overflow else Ok (mkVM st (its ++ [mkVI (vi_ref (vm_it m k)) i]), VONone)
  | VDeref k => let* x := vderef st (vm_it m k) in Ok (m, VOVal x)
  | VEq a b => cmp a b Z.eqb
  | VLt a b => cmp a b Z.ltb
  | VInsert o k x =>
      let* r := write o (fun l => vinsert l (vi_index (vm_it m k)) x) in
      Ok (mkVM (vm_st (fst r)) (its ++ [vm_it m k]), VONone)
  end.
End Vec.
