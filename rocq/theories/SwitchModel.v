(** Model of how the Spicy compiler builds the productions of a switch without expression ("branch by look-ahead"):
    spicy/toolchain/src/compiler/codegen/grammar-builder.cc:272-316, and how they get into the unit's grammar: grammar.cc:95-114.
    The tables computed from them are those of GrammarModel.v, the generated parsing code is that of LahModel.v. *)
From Verif Require Import Base GrammarModel LahModel.

(** One case: is it the default ("* -> ..."; switch.h:29), and the symbol of the production of its block (a production::Block,
    grammar-builder.cc:131-153, renamed at 286-289). *)
Record scase := mkCase { c_default : bool; c_sym : sym }.
(** A switch: its cases, its condition, its &size if any. *)
Record switch (E : Type) := mkSwitch { w_cases : list scase; w_cond : E -> bool; w_size : E -> option nat }.
Arguments w_cases {E}. Arguments w_cond {E}. Arguments w_size {E}. Arguments mkSwitch {E}.

(** A production::LookAhead as it is created at 306-312.  Its condition is the one of the switch; it has no attributes. *)
Record link := mkLink { k_sym : sym; k_first : sym; k_second : sym; k_default : ldefault }.

(** grammar-builder.cc:280-314, the loop for all but the first case.  [lha i] is the symbol "<switch>_lha_<i>"; [i] and [d] are the variables of the code;
    [prev] is the production built so far.  The result: the links in the order in which they are created, the last one is the outermost. *)
Fixpoint link_up (lha : nat -> sym) (i : nat) (d : ldefault) (prev : sym) (cs : list scase) : list link :=
  match cs with
  | [] => []
  | c :: cs' =>
      let i := if c_default c then i else S i in
      let d := if c_default c then DSecond else d in
      mkLink (lha i) prev (c_sym c) d :: link_up lha i d (lha i) cs'
  end.
(** ... with the first case, 292-299 *)
Definition links (lha : nat -> sym) (cs : list scase) : list link :=
  match cs with
  | [] => []
  | c :: cs' => link_up lha (if c_default c then 0 else 1) (if c_default c then DFirst else DNone) (c_sym c) cs'
  end.
(** 314: the production of the whole switch *)
Definition top (lha : nat -> sym) (cs : list scase) : sym :=
  match rev (links lha cs) with k :: _ => k_sym k | [] => match cs with c :: _ => c_sym c | [] => 0 end end.

(** grammar.cc:95-114 _addProduction, for the links: from the outermost to the innermost; one whose symbol is there already is left out, with everything
    inside it. *)
Fixpoint add_links (have : list sym) (outer_first : list link) : list link :=
  match outer_first with
  | [] => []
  | k :: ks => if mem (k_sym k) have then [] else k :: add_links (k_sym k :: have) ks
  end.
Definition added (lha : nat -> sym) (cs : list scase) : list link := add_links [] (rev (links lha cs)).
