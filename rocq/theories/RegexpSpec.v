(** Vocabulary for C47, independent of how the cache is implemented. *)
From Verif Require Import Base PortSpec RegexpModel.
Open Scope Z_scope.

Definition digit_char (c : Z) : Prop := 48 <= c <= 57.

(** A text that looks like the end of a rendered pattern: a slash, optionally an i, optionally a dollar sign with a number in
    parentheses, then a bar. *)
Inductive looks_like_end : bytes -> Prop :=
| lle (ci : bytes) (id : bytes) :
    ci = [] \/ ci = [105] ->
    id = [] \/ (exists ds, ds <> [] /\ Forall digit_char ds /\ id = [36; 40] ++ ds ++ [41]) ->
    looks_like_end ([47] ++ ci ++ id ++ [124]).

(** A pattern is plain if its text contains no such thing (in particular, if it contains no slash), and its ID is a uint64. *)
Definition plain (p : pattern) : Prop :=
  0 <= match_id p < 2 ^ 64 /\ forall a s b, value p = a ++ s ++ b -> ~ looks_like_end s.
