(** Specification for C24-C27. *)
From Verif Require Import Base IntModel IntSpec BytesModel.
Open Scope Z_scope.

(** The elements at positions [from] <= i < [to] of [s]. *)
Definition slice (s : bytes) (from to : nat) : bytes := firstn (to - from) (skipn from s).

(** Digits as one writes them: 0-9, then letters of either case. *)
Definition digit_value (c : byte) : option Z :=
  if (48 <=? c) && (c <=? 57) then Some (c - 48)
  else if (97 <=? c) && (c <=? 122) then Some (c - 87)
  else if (65 <=? c) && (c <=? 90) then Some (c - 55)
  else None.
Inductive digits (b : Z) : bytes -> Z -> Prop :=
| digits_one c d : digit_value c = Some d -> d < b -> digits b [c] d
| digits_more s c v d : digits b s v -> digit_value c = Some d -> d < b -> digits b (s ++ [c]) (v * b + d).
(** [s] is a numeral in base [b] with value [v]. *)
Inductive numeral (b : Z) : bytes -> Z -> Prop :=
| num_plain s v : digits b s v -> numeral b s v
| num_plus s v : digits b s v -> numeral b (43 :: s) v
| num_minus s v : digits b s v -> numeral b (45 :: s) (- v).

(** What the code reads: in base [b], the [b] characters from '0' on count as 0, 1, ..., whatever they are; otherwise the
    [b] - 10 characters from 'a' on, otherwise those from 'A' on, count as 10, 11, ... *)
Definition reads_as (b : Z) (c : byte) (d : Z) : Prop :=
  (0 <= c - 48 < b /\ d = c - 48) \/
  (~ 0 <= c - 48 < b /\ 0 <= c - 97 < b - 10 /\ d = c - 97 + 10) \/
  (~ 0 <= c - 48 < b /\ ~ 0 <= c - 97 < b - 10 /\ 0 <= c - 65 < b - 10 /\ d = c - 65 + 10).
Inductive reads (b : Z) : bytes -> Z -> Prop :=
| reads_none : reads b [] 0
| reads_more s c v d : reads b s v -> reads_as b c d -> reads b (s ++ [c]) (v * b + d).
(** A sign, which counts even if nothing follows, and the rest. *)
Definition signed (s : bytes) : bool * bytes :=
  match s with
  | c :: s' => if c =? 45 then (true, s') else if c =? 43 then (false, s') else (false, s)
  | [] => (false, [])
  end.

(** Characters the code takes for the digit they are (or for none): see C25_*_refuted for the others. *)
Definition plain_char (b : Z) (c : byte) : Prop :=
  b <= 10 \/ (~ (58 <= c <= 64) /\ (b <= 17 \/ ~ (65 <= c <= 90))).

(** Most significant byte first, whatever the order of [s] is. *)
Definition msb_first (hl : bool) (o : order) (s : bytes) : bytes :=
  match o with Little => rev s | Host => if hl then rev s else s | _ => s end.
Definition twos_complement (n : nat) (v : Z) : Z := if v <? 2 ^ (8 * Z.of_nat n - 1) then v else v - 2 ^ (8 * Z.of_nat n).

(** ** Abstract iterators: the object, how often it had been assigned to when the iterator was made, and the index. *)
Record aobj := mkAO { a_data : bytes; a_epoch : nat }.
Record aiter := mkAI { ai_obj : nat; ai_epoch : nat; ai_index : Z }.
Record amach := mkAM { am_objs : list (option aobj); am_its : list aiter }.
Definition am_init := mkAM [] [].
Definition aget (m : amach) (o : nat) : option aobj := match nth_error (am_objs m) o with Some (Some a) => Some a | _ => None end.
Definition aput (m : amach) (o : nat) (a : option aobj) : amach := mkAM (upd (am_objs m) o a) (am_its m).

(** What dereferencing gives: the current byte at the index as long as the object lives and was not assigned to. *)
Definition aderef (m : amach) (it : aiter) : res Z :=
  match aget m (ai_obj it) with
  | Some a => if Nat.eqb (a_epoch a) (ai_epoch it) then
                match nth_error (a_data a) (Z.to_nat (ai_index it)) with
                | Some x => Ok x
                | None => Throw IndexError
                end
              else Throw InvalidIterator
  | None => Throw InvalidIterator
  end.
Definition same_target (x y : aiter) : bool := Nat.eqb (ai_obj x) (ai_obj y) && Nat.eqb (ai_epoch x) (ai_epoch y).
Definition live_iter (m : amach) (it : aiter) : bool :=
  match aget m (ai_obj it) with Some a => Nat.eqb (a_epoch a) (ai_epoch it) | None => false end.

(** The client only names objects that exist, iterators it has, and 64-bit offsets. *)
Definition bop_ok (m : amach) (p : bop) : Prop :=
  let ob o := aget m o <> None in
  let itr k := (k < length (am_its m))%nat in
  match p with
  | BNew _ => True
  | BCopy o | BMove o _ | BAppend o _ | BDestroy o => ob o
  | BAssign d s | BMoveAssign d s _ => ob d /\ ob s
  | BAt o i => ob o /\ 0 <= i < 2 ^ 64
  | BAdvance k _ | BDeref k => itr k
  | BEq a b | BLt a b | BDiff a b => itr a /\ itr b
  | BSub o a b => ob o /\ itr a /\ itr b
  | BFind o _ s => ob o /\ match s with Some k => itr k | None => True end
  end.

(** The intended meaning of each operation. *)
Definition astep (m : amach) (p : bop) : res (amach * bobs) :=
  let it k := nth k (am_its m) (mkAI 0 0 0) in
  let add a := mkAM (am_objs m ++ [Some a]) (am_its m) in
  match p with
  | BNew d => Ok (add (mkAO d 0), ONone)
  | BCopy o => match aget m o with Some a => Ok (add (mkAO (a_data a) 0), ONone) | None => UB end
  | BMove o rest =>
      match aget m o with
      | Some a => Ok (mkAM (upd (am_objs m) o (Some (mkAO rest (a_epoch a))) ++ [Some (mkAO (a_data a) 0)]) (am_its m), ONone)
      | None => UB
      end
  | BAssign d s =>
      match aget m d, aget m s with
      | Some x, Some y => Ok (if Nat.eqb d s then m else aput m d (Some (mkAO (a_data y) (S (a_epoch x)))), ONone)
      | _, _ => UB
      end
  | BMoveAssign d s rest =>
      match aget m d, aget m s with
      | Some x, Some y => Ok (if Nat.eqb d s then aput m d (Some (mkAO rest (S (a_epoch x))))
                              else aput (aput m s (Some (mkAO rest (a_epoch y)))) d (Some (mkAO (a_data y) (S (a_epoch x)))), ONone)
      | _, _ => UB
      end
  | BAppend o d => match aget m o with Some a => Ok (aput m o (Some (mkAO (a_data a ++ d) (a_epoch a))), ONone) | None => UB end
  | BDestroy o => Ok (aput m o None, ONone)
  | BAt o i => match aget m o with Some a => Ok (mkAM (am_objs m) (am_its m ++ [mkAI o (a_epoch a) i]), ONone) | None => UB end
  | BAdvance k n =>
      let i := ai_index (it k) + n in
      if (0 <=? i) && (i <? 2 ^ 64) then Ok (mkAM (am_objs m) (am_its m ++ [mkAI (ai_obj (it k)) (ai_epoch (it k)) i]), ONone)
      else Throw Overflow
  | BDeref k => rmap (fun x => (m, OByte x)) (aderef m (it k))
  | BEq a b => if same_target (it a) (it b) then Ok (m, OBool (ai_index (it a) =? ai_index (it b))) else Throw InvalidArgument
  | BLt a b => if same_target (it a) (it b) then Ok (m, OBool (ai_index (it a) <? ai_index (it b))) else Throw InvalidArgument
  | BDiff a b =>
      if same_target (it a) (it b) then
        let d := ai_index (it a) - ai_index (it b) in if (0 <=? d) && (d <? 2 ^ 63) then Ok (m, OInt d) else Throw Overflow
      else Throw InvalidArgument
  | BSub o a b =>
      match aget m o with
      | None => UB
      | Some x =>
          if same_target (it a) (it b) && same_target (it a) (mkAI o (a_epoch x) 0) then
            if ai_index (it a) <? 2 ^ 63 then rmap (fun d => (m, OBytes d)) (sub (a_data x) (ai_index (it a)) (ai_index (it b)))
            else Throw Overflow
          else Throw InvalidArgument
      end
  | BFind o needle s =>
      match aget m o with
      | None => UB
      | Some x =>
          let b := mkAI o (a_epoch x) 0 in
          let s := match s with Some k => if live_iter m (it k) then it k else b | None => b end in
          let r (f : bool) i := Ok (mkAM (am_objs m) (am_its m ++ [mkAI (ai_obj s) (ai_epoch s) i]), OFound f i) in
          match needle with
          | [] => r true (ai_index s)
          | _ => if same_target s b then
                   if blen (a_data x) <? ai_index s then Throw IndexError
                   else let (f, i) := find_loop (skipn (Z.to_nat (ai_index s)) (a_data x)) needle (ai_index s) in r f i
                 else Throw InvalidArgument
          end
      end
  end.

(** Running a program: an exception aborts the operation, the client goes on. *)
Definition res_state {S O} (s : S) (r : res (S * O)) : S := match r with Ok (s', _) => s' | _ => s end.
Definition res_obs {S O} (r : res (S * O)) : res O := rmap snd r.
Fixpoint btrace (m : bmach) (ps : list bop) : list (res bobs) :=
  match ps with [] => [] | p :: ps' => res_obs (bstep m p) :: btrace (res_state m (bstep m p)) ps' end.
Fixpoint atrace (m : amach) (ps : list bop) : list (res bobs) :=
  match ps with [] => [] | p :: ps' => res_obs (astep m p) :: atrace (res_state m (astep m p)) ps' end.
Fixpoint bprog_ok (m : amach) (ps : list bop) : Prop :=
  match ps with [] => True | p :: ps' => bop_ok m p /\ bprog_ok (res_state m (astep m p)) ps' end.

(** [find] result: success with the first occurrence, otherwise the first position from which on the data is a proper
    prefix of the needle. *)
Definition occurs_at (s n : bytes) (i : nat) : Prop := exists r, skipn i s = n ++ r.
Definition partial_at (s n : bytes) (i : nat) : Prop := exists r, n = skipn i s ++ r.
Definition find_spec (s n : bytes) (start : nat) (found : bool) (i : nat) : Prop :=
  (start <= i <= length s)%nat /\
  (if found then occurs_at s n i else partial_at s n i /\ forall j, (i <= j)%nat -> ~ occurs_at s n j) /\
  (forall j, (start <= j < i)%nat -> ~ occurs_at s n j /\ ~ partial_at s n j).
