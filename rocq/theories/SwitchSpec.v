(** Specification for C76: a switch by look-ahead inside a unit. *)
From Verif Require Import Base GrammarModel GrammarSpec LahModel LahSpec LahSpec2 SwitchModel.

Section Spec.
Context {E : Type} (P : prog E) (I : input).

(** The grammar [g] of a unit has the switch [w], the program [P] runs the code generated for it.  The names the compiler gives to the links of a
    switch are different ones for different numbers; the links are used for this switch only;
    there is at most one default (validator.cc:1113-1114). *)
Record has_switch (g : grammar) (lha : nat -> sym) (w : switch E) : Prop := mkHas {
  hs_names : forall i j, lha i = lha j -> i = j;
  hs_one : forall i j c d, nth_error (w_cases w) i = Some c -> nth_error (w_cases w) j = Some d -> c_default c = true -> c_default d = true -> i = j;
  hs_some : w_cases w <> [];
  hs_link : forall k, In k (added lha (w_cases w)) -> find g (k_sym k) = Some (PLook (k_first k) (k_second k)) /\ p_default P (k_sym k) = k_default k /\
    p_call P (k_sym k) = None /\ forall e, p_cond P (k_sym k) e = w_cond w e /\ p_size P (k_sym k) e = None;
  hs_case : forall c, In c (w_cases w) -> exists ps es, p_prod P (c_sym c) = Some (PBlock ps es);
  hs_only : forall k s rhs, In k (added lha (w_cases w)) -> alternative g s rhs -> In (k_sym k) rhs -> k_sym k = top lha (w_cases w) \/ exists k', In k' (added lha (w_cases w)) /\ s = k_sym k';
  hs_used : exists before after, derives g [g_root g] (before ++ top lha (w_cases w) :: after) }.

(** The case [c] can begin with the token [t] (or be empty and be followed by it). *)
Definition begins (g : grammar) (lha : nat -> sym) (w : switch E) (c : scase) (t : sym) : Prop := next_token g (top lha (w_cases w)) (c_sym c) t.
Definition any_case (g : grammar) (lha : nat -> sym) (w : switch E) (t : sym) : Prop := exists c, In c (w_cases w) /\ begins g lha w c t.
(** The literals the cases can begin with are bytes constants, not empty, and none is a prefix of another one.  There may also be tokens that
    are not literals. *)
Definition word (g : grammar) (t : sym) (v : bytes) : Prop := exists l, tok_of g t = Some l /\ p_kind P l = KBytes v.
Record separate (g : grammar) (lha : nat -> sym) (w : switch E) : Prop := mkSep {
  se_lit : forall t l, any_case g lha w t -> tok_of g t = Some l -> exists v, p_kind P l = KBytes v /\ v <> [];
  se_free : forall t t' v v', any_case g lha w t -> any_case g lha w t' -> t <> t' -> word g t v -> word g t' v' -> ~ prefix v v' }.

(** The parser is at the switch with no look-ahead pending, not inside something limited by &size; the state is one that can occur. *)
Record at_switch (x : st E) : Prop := mkAt {
  as_lah : s_lah x = LNone;
  as_lahe : s_lahe x <= s_pos x;
  as_lim : s_lim x = None;
  as_arr : s_arr x <= length (i_data I);
  as_pos : s_pos x <= length (i_data I);
  as_frozen : s_frozen x = true -> i_closed I = true /\ s_arr x = length (i_data I) /\ s_sched x = [] }.
Definition ahead (x : st E) : bytes := skipn (s_pos x) (i_data I).
Definition nothing_matches (g : grammar) (lha : nat -> sym) (w : switch E) (x : st E) : Prop :=
  forall t v, any_case g lha w t -> word g t v -> ~ prefix v (ahead x).

(** Parsing [s] in the state [x] means parsing the production of the case [c] at the same place, whatever that does. *)
Definition goes_to (s : sym) (x : st E) (c : scase) : Prop :=
  exists k y, s_pos y = s_pos x /\ s_env y = s_env x /\ s_lim y = s_lim x /\ forall m, parse P I (k + m) s x = parse P I m (c_sym c) y.
Definition fails (s : sym) (x : st E) : Prop := exists k, forall m, parse P I (k + m) s x = Fail.
End Spec.
