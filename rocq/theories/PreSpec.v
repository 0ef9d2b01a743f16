(** Specification for C78: what doc/programming/language/conditional.rst says about @if, @else and @endif. *)
From Verif Require Import Base StrModel StrSpec BytesSpec PreModel.
Open Scope Z_scope.

(** The value of an identifier: zero if it is not defined. *)
Definition id_value (cs : constants) (id : bytes) (v : Z) : Prop :=
  match find (fun p => if list_eq_dec Z.eq_dec (fst p) id then true else false) cs with Some (_, x) => v = x | None => v = 0 end.

(** Operators and their meaning. *)
Inductive operator : bytes -> (Z -> Z -> Prop) -> Prop :=
| op_eq : operator [61; 61] (fun a b => a = b)
| op_ne : operator [33; 61] (fun a b => a <> b)
| op_lt : operator [60] (fun a b => a < b)
| op_le : operator [60; 61] (fun a b => a <= b)
| op_gt : operator [62] (fun a b => a > b)
| op_ge : operator [62; 61] (fun a b => a >= b).

(** IDENTIFIER OPERATOR VALUE, or IDENTIFIER *)
Inductive comparison (cs : constants) : list bytes -> bool -> Prop :=
| cmp_full id op value rel have want b : id_value cs id have -> operator op rel -> numeral 10 value want -> - 2 ^ 31 <= want < 2 ^ 31 -> (length value <= 255)%nat ->
    (b = true <-> rel have want) -> comparison cs [id; op; value] b
| cmp_short id have b : id_value cs id have -> (b = true <-> have <> 0) -> comparison cs [id] b.
(** [!] and one of these, the words being separated by blanks. *)
Inductive condition (cs : constants) (e : bytes) : bool -> Prop :=
| cond_plain l b : words e l -> hd_error l <> Some BANG -> comparison cs l b -> condition cs e b
| cond_not l b : words e (BANG :: l) -> comparison cs l b -> condition cs e (negb b).

(** Values that [std::int] can hold and that are numbers: see C78_value_refuted for the others. *)
Definition plain_value (w : bytes) : Prop :=
  Forall is_byte w /\ w <> [43] /\ w <> [45] /\ ~ numeral 10 w (2 ^ 31) /\ (length w <= 255)%nat.
Definition plain_expr (e : bytes) : Prop := forall l w, words e l -> In w l -> plain_value w.

(** Reading a source text: [selects many cs on l out] says that [l] is well-nested and that, if all of it is to be included
    ([on]) or skipped, [out] is the text that is included. Conditions inside of skipped text do not matter. With [many], a
    block may have more than one @else, which start included and skipped parts in turn. *)
Inductive selects (many : bool) (cs : constants) : bool -> list item -> list bytes -> Prop :=
| sel_nil on : selects many cs on [] []
| sel_text on t l out : selects many cs on l out -> selects many cs on (Text t :: l) ((if on : bool then [t] else []) ++ out)
| sel_if on e b blk o1 l o2 : (on = true -> condition cs e b) ->
    branches many cs on b true blk o1 -> selects many cs on l o2 ->
    selects many cs on (Directive AT_IF e :: blk ++ l) (o1 ++ o2)
with branches (many : bool) (cs : constants) : bool -> bool -> bool -> list item -> list bytes -> Prop :=
(** from behind @if or @else up to and including @endif; [b]: does this part count; [more]: may an @else follow *)
| br_end on b more body o w : selects many cs (on && b) body o -> all_in ws w ->
    branches many cs on b more (body ++ [Directive AT_ENDIF w]) o
| br_else on b body o1 w rest o2 : selects many cs (on && b) body o1 -> all_in ws w -> branches many cs on (negb b) many rest o2 ->
    branches many cs on b true (body ++ Directive AT_ELSE w :: rest) (o1 ++ o2).
