(** Specification for C28-C31. *)
From Verif Require Import Base StrModel.

Definition contains (d x : bytes) : Prop := exists a b, x = a ++ d ++ b.
Definition all_in (cs s : bytes) : Prop := Forall (fun x => In x cs) s.
Definition none_in (cs s : bytes) : Prop := Forall (fun x => ~ In x cs) s.

(** Pieces separated by [d]. *)
Fixpoint concat_with (d : bytes) (l : list bytes) : bytes :=
  match l with
  | [] => []
  | [x] => x
  | x :: l' => x ++ d ++ concat_with d l'
  end.

(** Cutting [s] at the first occurrence of [d], then the rest at its first occurrence, and so on. *)
Inductive pieces (d : bytes) : bytes -> list bytes -> Prop :=
| pieces_last s : ~ contains d s -> pieces d s [s]
| pieces_more a b l : (forall a' b', a ++ d ++ b = a' ++ d ++ b' -> length a <= length a') -> pieces d b l ->
    pieces d (a ++ d ++ b) (a :: l).

(** No proper non-empty prefix of [d] is also a suffix: occurrences cannot overlap. All one-character delimiters qualify. *)
Definition unbordered (d : bytes) : Prop :=
  forall k, 0 < k < length d -> firstn k d <> skipn (length d - k) d.

(** [l] are the maximal runs of non-whitespace of [s], in order. *)
Inductive words : bytes -> list bytes -> Prop :=
| words_nil s : all_in ws s -> words s []
| words_cons w t r l : all_in ws w -> t <> [] -> none_in ws t ->
    (r = [] \/ exists x r', r = x :: r' /\ In x ws) -> words r l -> words (w ++ t ++ r) (t :: l).

(** [r] results from replacing occurrences of [o] in [s] by [n], always taking the leftmost next one. *)
Inductive replaced (o n : bytes) : bytes -> bytes -> Prop :=
| replaced_none s : ~ contains o s -> replaced o n s s
| replaced_step a b r : (forall a' b', a ++ o ++ b = a' ++ o ++ b' -> length a <= length a') ->
    replaced o n b r -> replaced o n (a ++ o ++ b) (a ++ n ++ r).

Definition hex_value (c : byte) : option Z :=
  (if (48 <=? c) && (c <=? 57) then Some (c - 48)
   else if (65 <=? c) && (c <=? 70) then Some (c - 55) else None)%Z.
(** A reader of hex strings. *)
Fixpoint read_hex (s : bytes) : option bytes :=
  match s with
  | [] => Some []
  | [_] => None
  | a :: b :: s' => match hex_value a, hex_value b, read_hex s' with
                    | Some x, Some y, Some r => Some ((x * 16 + y)%Z :: r)
                    | _, _, _ => None
                    end
  end.
(** A reader of colon separated pairs. *)
Fixpoint read_mac (s : bytes) : option bytes :=
  match s with
  | [] => Some []
  | [a; b] => match hex_value a, hex_value b with Some x, Some y => Some [(x * 16 + y)%Z] | _, _ => None end
  | a :: b :: c :: s' => match hex_value a, hex_value b, read_mac s' with
                    | Some x, Some y, Some (u :: r) => if Z.eqb c 58 then Some ((x * 16 + y)%Z :: u :: r) else None
                    | _, _, _ => None
                    end
  | _ => None
  end.
