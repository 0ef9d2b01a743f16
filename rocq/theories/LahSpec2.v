(** Specification for C75: the units for which look-ahead is exact. *)
From Verif Require Import Base GrammarModel GrammarSpec LahModel LahSpec.

Section Spec.
Context {E : Type} (P : prog E).

(** [g] is the grammar of a unit; the compiler has accepted it, and the generated parser has its productions and look-ahead sets. *)
Definition compiled (g : grammar) : Prop :=
  complete g /\
  (forall s p, find g s = Some p -> p_prod P s = Some p) /\
  exists m n g' t, finalize m n g = Some (Accepted g' t) /\
    forall s a b, find g' s = Some (PLook a b) -> p_lahs P s = look_ahead_sets g' t s a b.

(** [t] can be the next token at the look-ahead production [s], whichever alternative is taken. *)
Definition expected (g : grammar) (s t : sym) : Prop :=
  exists a b, find g s = Some (PLook a b) /\ (next_token g s a t \/ next_token g s b t).
Definition prefix (v w : bytes) : Prop := exists u, w = v ++ u.
(** What a look-ahead production looks for are bytes constants, not empty, and none is a prefix of another one. *)
Record distinct_literals (g : grammar) : Prop := mkLits {
  dl_lit : forall s t, expected g s t -> exists p l w, find g t = Some p /\ token_id p = Some l /\ p_inuse P l = true /\ p_kind P l = KBytes w /\ w <> [];
  dl_free : forall s t t' p p' l l' w w', expected g s t -> expected g s t' -> t <> t' ->
    find g t = Some p -> token_id p = Some l -> p_kind P l = KBytes w ->
    find g t' = Some p' -> token_id p' = Some l' -> p_kind P l' = KBytes w' -> ~ prefix w w' }.

(** Productions that make up a loop with look-ahead (while.cc:28-64): List1 -> Epsilon | List2; List2 -> Item List1. *)
Definition list_look (g : grammar) (l1 : sym) : Prop := exists s, find g s = Some (PWhile l1).
Definition inner (g : grammar) (s : sym) : Prop := exists l1 eps l2, list_look g l1 /\ find g l1 = Some (PLook eps l2) /\ (s = l1 \/ s = l2).
(** The unit has no counted or for-each loops, no &size, and no conditions except for blocks with an else branch; a loop with look-ahead is built as
    while.cc:28-64 builds it, of productions that are not used for anything else. *)
Record plain (g : grammar) : Prop := mkPlain {
  pl_loop : forall s b, find g s <> Some (PLoop b);
  pl_size : forall s e, find g s <> None -> p_size P s e = None;
  pl_cond : forall s p e, find g s = Some p -> p_cond P s e = true \/ exists ps es, p = PBlock ps es /\ es <> [];
  pl_while : forall s l1, find g s = Some (PWhile l1) -> exists eps l2 b,
    find g l1 = Some (PLook eps l2) /\ find g eps = Some PEpsilon /\ find g l2 = Some (PSeq [b; l1]) /\ ~ inner g b /\ p_default P l1 = DNone /\ p_call P l1 = None /\ p_call P l2 = None;
  pl_call : forall s ps es, find g s = Some (PBlock ps es) -> p_call P s = None;
  pl_inner : forall s rhs c, alternative g s rhs -> In c rhs -> inner g c -> inner g s \/ exists l1, find g s = Some (PWhile l1);
  pl_root : ~ inner g (g_root g) }.

(** The look-ahead production [s] can be the last thing in the unit. *)
Definition can_be_last (g : grammar) (s : sym) : Prop := exists before after, derives g [g_root g] (before ++ s :: after) /\ derives g after [].
(** If it is, this can be told from the end of the data: one alternative is nothing at all, with nothing that could follow; the other one is not empty. *)
Definition ends_with_data (g : grammar) (s : sym) : Prop :=
  forall a b, find g s = Some (PLook a b) ->
    (find g a = Some PEpsilon /\ (forall t, ~ next_token g s a t) /\ ~ can_be_empty g b) \/
    (find g b = Some PEpsilon /\ (forall t, ~ next_token g s b t) /\ ~ can_be_empty g a).

Definition tok_of (g : grammar) (t : sym) : option lit := match find g t with Some p => token_id p | None => None end.

(** The productions of a unit except for those inside the units it uses. *)
Inductive own (g : grammar) : sym -> Prop :=
| own_root : own g (g_root g)
| own_child s rhs c : own g s -> p_call P s = None -> alternative g s rhs -> In c rhs -> own g c.
(** What can come behind a unit, when the program parses the unit [main]: a token (a literal or not), or, when [main] ends there, whatever the input has
    there (None). *)
Inductive behind (all : grammar -> Prop) (main : grammar) : grammar -> option (option lit) -> Prop :=
| bh_main : behind all main main None
| bh_next g s h t : all g -> all h -> find g s <> None -> p_call P s = Some (g_root h) -> can_follow g s t -> behind all main h (Some (tok_of g t))
| bh_last g s h o before after : all g -> all h -> find g s <> None -> p_call P s = Some (g_root h) -> derives g [g_root g] (before ++ s :: after) -> derives g after [] ->
    behind all main g o -> behind all main h o.
(** The literal [l] cannot be confused with what [s] looks for. *)
Definition apart (g : grammar) (s : sym) (l : lit) : Prop :=
  exists w, p_kind P l = KBytes w /\ w <> [] /\
    forall t p' l' w', expected g s t -> find g t = Some p' -> token_id p' = Some l' -> p_kind P l' = KBytes w' -> ~ prefix w w' /\ ~ prefix w' w.

(** A program that parses [main], with the units [all].  A field of the type of another unit has that unit's productions in the grammar of
    the unit it is in, with other symbols (grammar-builder.cc), hence it derives the same tokens.  If a unit ends with a decision, then with the one of a list, and what comes
    behind the unit cannot be confused with an element of the list. *)
Record units (all : grammar -> Prop) (main : grammar) : Prop := mkUnits {
  un_main : all main;
  un_compiled : forall g, all g -> compiled g;
  un_plain : forall g, all g -> plain g;
  un_lits : forall g, all g -> distinct_literals g;
  un_call : forall g s r, all g -> find g s <> None -> p_call P s = Some r -> exists h, all h /\ g_root h = r /\
    (forall tr, Forall (token h) tr -> derives h [r] tr -> exists tr', Forall (token g) tr' /\ derives g [s] tr' /\ map (tok_of g) tr' = map (tok_of h) tr);
  un_ends : forall g s a b o, all g -> own g s -> find g s = Some (PLook a b) -> can_be_last g s -> behind all main g (Some o) ->
    ends_with_data g s /\ list_look g s /\ exists l, o = Some l /\ apart g s l }.

(** Where the input goes on behind [main], at [j], that cannot be confused with an element of a list either; or the input ends there. *)
Definition ends_at (I : input) (all : grammar -> Prop) (main : grammar) (j : nat) : Prop :=
  forall g s a b, all g -> own g s -> find g s = Some (PLook a b) -> can_be_last g s -> behind all main g None ->
    ends_with_data g s /\
    (j = length (i_data I) \/
     list_look g s /\ forall t p l w, expected g s t -> find g t = Some p -> token_id p = Some l -> p_kind P l = KBytes w -> ~ prefix w (skipn j (i_data I))).
End Spec.
