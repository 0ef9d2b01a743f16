(** Specification of grammars: derivations, and what NULLABLE, FIRST and FOLLOW mean. *)
From Verif Require Import Base GrammarModel.

(** Terminals, read off the production classes (isTerminal in productions/*.h). *)
Definition leaf (p : prod) : bool := match p with PEpsilon | PCtor _ | PSkipCtor _ _ | PVar _ => true | _ => false end.
(** What a symbol can be replaced by: a sequence by all its fields; a look-ahead by either alternative; a switch by any of its
    cases or its default; a block by its fields or, if there are any, the fields of its else branch; a loop and an enclosure by
    what they contain. *)
Inductive alternative (g : grammar) (s : sym) : list sym -> Prop :=
| alt_seq ps : find g s = Some (PSeq ps) -> alternative g s ps
| alt_look1 a b : find g s = Some (PLook a b) -> alternative g s [a]
| alt_look2 a b : find g s = Some (PLook a b) -> alternative g s [b]
| alt_case cs d c : find g s = Some (PSwitch cs d) -> In c cs -> alternative g s [c]
| alt_default cs d : find g s = Some (PSwitch cs (Some d)) -> alternative g s [d]
| alt_then ps es : find g s = Some (PBlock ps es) -> alternative g s ps
| alt_else ps es : find g s = Some (PBlock ps es) -> es <> [] -> alternative g s es
| alt_loop b : find g s = Some (PLoop b) -> alternative g s [b]
| alt_while b : find g s = Some (PWhile b) -> alternative g s [b]
| alt_enclosure b : find g s = Some (PEnclosure b) -> alternative g s [b].

(** A grammar as built by the compiler: symbols are unique, [g_nterms] lists the non-terminals, everything a production
    mentions is there. *)
Record complete (g : grammar) : Prop := mkComplete {
  cp_prods : NoDup (map fst (g_prods g));
  cp_nterms : NoDup (g_nterms g);
  cp_nterm : forall s, In s (g_nterms g) <-> exists p, find g s = Some p /\ leaf p = false;
  cp_closed0 : forall s rhs x, alternative g s rhs -> In x rhs -> find g x <> None;
  cp_root : find g (g_root g) <> None }.

(** One derivation step: some symbol is replaced by one of its right-hand sides; epsilon disappears. *)
Inductive step (g : grammar) : list sym -> list sym -> Prop :=
| step_alt x s rhs y : alternative g s rhs -> step g (x ++ s :: y) (x ++ rhs ++ y)
| step_eps x s y : find g s = Some PEpsilon -> step g (x ++ s :: y) (x ++ y).
Inductive derives (g : grammar) : list sym -> list sym -> Prop :=
| der_refl l : derives g l l
| der_step l m n : derives g l m -> step g m n -> derives g l n.

(** A token is a terminal other than epsilon. *)
Definition token (g : grammar) (t : sym) : Prop := exists p, find g t = Some p /\ leaf p = true /\ p <> PEpsilon.
(** [s] can become empty; [l] can start with [t]; [t] can come right after [s]. *)
Definition can_be_empty (g : grammar) (s : sym) : Prop := derives g [s] [].
Definition can_start (g : grammar) (l : list sym) (t : sym) : Prop := token g t /\ exists more, derives g l (t :: more).
Definition can_follow (g : grammar) (s t : sym) : Prop :=
  token g t /\ exists before after, derives g [g_root g] (before ++ s :: t :: after).
(** In some derivation from the root, replacing [s] by [alt], the next token is [t]. *)
Definition next_token (g : grammar) (s alt t : sym) : Prop :=
  exists before after, derives g [g_root g] (before ++ s :: after) /\ can_start g (alt :: after) t.

(** Beyond the grammar: at run time a loop parses its body any number of times, and a block without else branch may be left out. *)
Inductive run_step (g : grammar) : list sym -> list sym -> Prop :=
| rs_step l m : step g l m -> run_step g l m
| rs_loop x s body k y : find g s = Some (PLoop body) -> run_step g (x ++ s :: y) (x ++ repeat body k ++ y)
| rs_block x s ps y : find g s = Some (PBlock ps []) -> run_step g (x ++ s :: y) (x ++ y).
Inductive run_derives (g : grammar) : list sym -> list sym -> Prop :=
| rder_refl l : run_derives g l l
| rder_step l m n : run_derives g l m -> run_step g m n -> run_derives g l n.
Definition run_next_token (g : grammar) (s alt t : sym) : Prop :=
  token g t /\ exists before after more,
    run_derives g [g_root g] (before ++ s :: after) /\ run_derives g (alt :: after) (t :: more).
