(** Specification for C40 and C41: vectors are lists, iterators are pairs of a vector and an index. *)
From Verif Require Import Base BytesModel BytesSpec VecModel.
Open Scope Z_scope.

Section Spec.
Variable dflt : Z.

Record avm := mkAVM { av_objs : list (option (list Z)); av_its : list (nat * Z) }.
Definition avm_init := mkAVM [] [].
Definition avget (m : avm) (o : nat) : option (list Z) := match nth_error (av_objs m) o with Some (Some l) => Some l | _ => None end.
Definition avput (m : avm) (o : nat) (l : option (list Z)) : avm := mkAVM (upd (av_objs m) o l) (av_its m).

(** The elements at positions [s] <= i < [e] that exist. *)
Definition elements (l : list Z) (s e : Z) : list Z :=
  if e <=? s then [] else firstn (Z.to_nat (e - s)) (skipn (Z.to_nat s) l).

(** The list with element [i] replaced by [x], extended with default elements as necessary. *)
Definition set_at (l : list Z) (i : nat) (x : Z) : list Z :=
  firstn i (l ++ repeat dflt i) ++ x :: skipn (S i) l.

(** Contract: existing vectors and iterators, 64-bit offsets; not [v += v], no index 2^64-1 for assign, and iterators handed
    to insert belong to that vector. *)
Definition vop_ok (m : avm) (p : vop) : Prop :=
  let ob o := avget m o <> None in
  let itr k := (k < length (av_its m))%nat in
  match p with
  | VNew _ => True
  | VCopy o | VMove o _ | VPush o _ | VClear o | VPop o | VFront o | VBack o | VSize o | VDestroy o => ob o
  | VAssign d s | VMoveAssign d s _ => ob d /\ ob s
  | VConcat d s => ob d /\ ob s /\ d <> s
  | VGet o i | VIter o i | VIterAt o i | VSubTo o i => ob o /\ 0 <= i < 2 ^ 64
  | VSet o i _ => ob o /\ 0 <= i < 2 ^ 64 - 1
  | VSub o s e => ob o /\ 0 <= s < 2 ^ 64 /\ 0 <= e < 2 ^ 64
  | VNext k | VDeref k => itr k
  | VEq a b | VLt a b => itr a /\ itr b
  | VInsert o k _ => ob o /\ itr k /\ fst (nth k (av_its m) (0%nat, 0)) = o
  end.

Definition avstep (m : avm) (p : vop) : res (avm * vobs) :=
  let it k := nth k (av_its m) (0%nat, 0) in
  let read o (f : list Z -> res vobs) := match avget m o with Some l => rmap (fun x => (m, x)) (f l) | None => UB end in
  let write o (f : list Z -> res (list Z)) :=
    match avget m o with Some l => rmap (fun l' => (avput m o (Some l'), VONone)) (f l) | None => UB end in
  let elem l i (e : exn) := match nth_error l (Z.to_nat i) with Some x => Ok (VOVal x) | None => Throw e end in
  match p with
  | VNew l => Ok (mkAVM (av_objs m ++ [Some l]) (av_its m), VONone)
  | VCopy o => match avget m o with Some l => Ok (mkAVM (av_objs m ++ [Some l]) (av_its m), VONone) | None => UB end
  | VMove o rest => match avget m o with Some l => Ok (mkAVM (upd (av_objs m) o (Some rest) ++ [Some l]) (av_its m), VONone) | None => UB end
  | VAssign d s => match avget m s with Some l => Ok (avput m d (Some l), VONone) | None => UB end
  | VMoveAssign d s rest =>
      match avget m s with
      | Some l => Ok (if Nat.eqb d s then avput m d (Some rest) else avput (avput m s (Some rest)) d (Some l), VONone)
      | None => UB
      end
  | VPush o x => write o (fun l => Ok (l ++ [x]))
  | VClear o => write o (fun _ => Ok [])
  | VPop o => write o (fun l => match rev l with [] => Throw IndexError | _ :: r => Ok (rev r) end)
  | VFront o => read o (fun l => elem l 0 IndexError)
  | VBack o => read o (fun l => match rev l with [] => Throw IndexError | x :: _ => Ok (VOVal x) end)
  | VSize o => read o (fun l => Ok (VOVal (Z.of_nat (length l))))
  | VGet o i => read o (fun l => elem l i IndexError)
  | VSet o i x => write o (fun l => if (vmax <=? i) && (Z.of_nat (length l) <=? i) then Throw LogicError else Ok (set_at l (Z.to_nat i) x))
  | VSub o s e => read o (fun l => Ok (VOList (elements l s e)))
  | VSubTo o e => read o (fun l => Ok (VOList (elements l 0 e)))
  | VConcat d s => match avget m s with Some l' => write d (fun l => Ok (l ++ l')) | None => UB end
  | VDestroy o => Ok (avput m o None, VONone)
  | VIter o i => Ok (mkAVM (av_objs m) (av_its m ++ [(o, i)]), VONone)
  | VIterAt o i => match avget m o with
                   | Some l => if Z.of_nat (length l) <=? i then Throw IndexError else Ok (mkAVM (av_objs m) (av_its m ++ [(o, i)]), VONone)
                   | None => UB
                   end
  | VNext k => let i := snd (it k) + 1 in if 2 ^ 64 <=? i then Throw Overflow else Ok (mkAVM (av_objs m) (av_its m ++ [(fst (it k), i)]), VONone)
  (* the current element at the index, or InvalidIterator if there is none or the vector is gone *)
  | VDeref k => match avget m (fst (it k)) with
                | Some l => rmap (fun x => (m, x)) (elem l (snd (it k)) InvalidIterator)
                | None => Throw InvalidIterator
                end
  | VEq a b => if Nat.eqb (fst (it a)) (fst (it b)) then Ok (m, VOBool (snd (it a) =? snd (it b))) else Throw InvalidArgument
  | VLt a b => if Nat.eqb (fst (it a)) (fst (it b)) then Ok (m, VOBool (snd (it a) <? snd (it b))) else Throw InvalidArgument
  | VInsert o k x =>
      match avget m o with
      | Some l => if Z.of_nat (length l) <? snd (it k) then Throw InvalidIterator
                  else let i := Z.to_nat (snd (it k)) in
                       Ok (mkAVM (upd (av_objs m) o (Some (firstn i l ++ x :: skipn i l))) (av_its m ++ [it k]), VONone)
      | None => UB
      end
  end.

Fixpoint vtrace (m : vmach) (ps : list vop) : list (res vobs) :=
  match ps with [] => [] | p :: ps' => res_obs (vstep dflt m p) :: vtrace (res_state m (vstep dflt m p)) ps' end.
Fixpoint avtrace (m : avm) (ps : list vop) : list (res vobs) :=
  match ps with [] => [] | p :: ps' => res_obs (avstep m p) :: avtrace (res_state m (avstep m p)) ps' end.
Fixpoint vprog_ok (m : avm) (ps : list vop) : Prop :=
  match ps with [] => True | p :: ps' => vop_ok m p /\ vprog_ok (res_state m (avstep m p)) ps' end.
End Spec.
