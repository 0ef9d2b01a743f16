(** Specification of parsing: what the declaration of a unit says about a piece of input, without look-ahead, without arrival of the input. *)
From Verif Require Import Base GrammarModel LahModel.

Section Spec.
Context {E : Type} (P : prog E) (I : input).

(** The input from offset [i] on, up to a limit; and whether nothing can be added to it any more. *)
Definition rest_at (lim : option nat) (i : nat) : bytes :=
  skipn i (match lim with Some l => firstn l (i_data I) | None => i_data I end).
Definition ended (lim : option nat) : Prop :=
  i_closed I = true \/ match lim with Some l => l <= length (i_data I) | None => False end.
Definition ended_b (lim : option nat) : bool :=
  i_closed I || match lim with Some l => Nat.leb l (length (i_data I)) | None => false end.

(** With &size=n the field starting at [i] sees [n] bytes (or less, if it is itself inside something limited) and ends at [i + n]. *)
Definition bounds (lim : option nat) (n : option nat) (i j : nat) (lim' : option nat) : Prop :=
  match n with
  | None => lim' = lim
  | Some n => lim' = Some (match lim with Some l => Nat.min l (i + n) | None => i + n end) /\ j = i + n
  end.

(** The three kinds of loops: a number of elements still to come; up to the end of the data (if that is what ends it); look-ahead: as many as the
    input has. *)
Inductive how := HCount (n : nat) | HEach (eod_ok : bool) | HWhile.
Definition may_end (h : how) (lim : option nat) (i : nat) : Prop :=
  match h with HCount n => n = 0 | HEach eod_ok => eod_ok = true /\ rest_at lim i = [] /\ ended lim | HWhile => True end.
Definition may_go_on (h : how) (lim : option nat) (i : nat) (h' : how) : Prop :=
  match h with HCount n => exists n', n = S n' /\ h' = HCount n' | HEach eod_ok => h' = h /\ (eod_ok = true -> rest_at lim i <> []) | HWhile => h' = h end.
(** Between two elements a loop must move, except at the end of the data. *)
Definition moved (h : how) (lim : option nat) (i j : nat) : Prop :=
  match h with HCount _ => True | _ => i <> j \/ (rest_at lim j = [] /\ ended lim) end.

(** [parsed lim s e i e' j]: reading [s] at offset [i] in program state [e] takes the bytes up to offset [j] and leads to state [e']. *)
Inductive parsed : option nat -> sym -> E -> nat -> E -> nat -> Prop :=
| pd_body lim s p e i e' j lim' : p_prod P s = Some p -> p_cond P s e = true -> p_call P s = None -> bounds lim (p_size P s e) i j lim' ->
    body lim' s p e i e' j -> parsed lim s e i e' j
| pd_unit lim s p e i e' j lim' r : p_prod P s = Some p -> p_cond P s e = true -> p_call P s = Some r -> bounds lim (p_size P s e) i j lim' ->
    parsed lim' r e i e' j -> parsed lim s e i e' j
| pd_else lim s ps es e i e' j lim' : p_prod P s = Some (PBlock ps es) -> p_cond P s e = false -> bounds lim (p_size P s e) i j lim' ->
    parsed_all lim' es e i e' j -> parsed lim s e i e' j
| pd_absent lim s p e i : p_prod P s = Some p -> (forall ps es, p <> PBlock ps es) -> p_cond P s e = false -> parsed lim s e i e i
(** ... for the production of [s] *)
with body : option nat -> sym -> prod -> E -> nat -> E -> nat -> Prop :=
| bd_seq lim s ps e i e' j : parsed_all lim ps e i e' j -> body lim s (PSeq ps) e i e' j
| bd_block lim s ps es e i e' j : parsed_all lim ps e i e' j -> body lim s (PBlock ps es) e i e' j
| bd_enclosure lim s c e i e' j : parsed lim c e i e' j -> body lim s (PEnclosure c) e i e' j
| bd_epsilon lim s e i : body lim s PEpsilon e i e i
| bd_ctor lim s l w e i e' : spelled lim l i w -> p_field P s w e = Some e' -> body lim s (PCtor l) e i e' (i + length w)
| bd_skip lim s c l w e i e' : spelled lim l i w -> p_field P s w e = Some e' -> body lim s (PSkipCtor c l) e i e' (i + length w)
| bd_var lim s ty n e i e' : p_var P s e (rest_at lim i) (ended_b lim) = VOk n -> p_field P s (firstn n (rest_at lim i)) e = Some e' ->
    body lim s (PVar ty) e i e' (i + n)
| bd_case lim s cs d k c e i e' j : p_case P s e = Some k -> nth_error cs k = Some c -> parsed lim c e i e' j -> body lim s (PSwitch cs d) e i e' j
| bd_default lim s cs d e i e' j : p_case P s e = None -> parsed lim d e i e' j -> body lim s (PSwitch cs (Some d)) e i e' j
| bd_first lim s a b e i e' j : parsed lim a e i e' j -> body lim s (PLook a b) e i e' j
| bd_second lim s a b e i e' j : parsed lim b e i e' j -> body lim s (PLook a b) e i e' j
| bd_count lim s b n e i e' j : p_loop P s = LCount n -> items lim s b (HCount (n e)) e i e' j -> body lim s (PLoop b) e i e' j
| bd_each lim s b eod_ok e i e' j : p_loop P s = LEach eod_ok -> items lim s b (HEach eod_ok) e i e' j -> body lim s (PLoop b) e i e' j
| bd_while lim s l1 eps l2 b ps e i e' j : p_prod P l1 = Some (PLook eps l2) -> p_prod P l2 = Some (PSeq (b :: ps)) ->
    items lim s b HWhile e i e' j -> body lim s (PWhile l1) e i e' j
with parsed_all : option nat -> list sym -> E -> nat -> E -> nat -> Prop :=
| pa_nil lim e i : parsed_all lim [] e i e i
| pa_cons lim s l e i e1 j1 e' j : parsed lim s e i e1 j1 -> parsed_all lim l e1 j1 e' j -> parsed_all lim (s :: l) e i e' j
(** ... the elements [b] of the container [s] *)
with items : option nat -> sym -> sym -> how -> E -> nat -> E -> nat -> Prop :=
| it_end lim s b h e i : may_end h lim i -> items lim s b h e i e i
| it_stop lim s b h h' e i e1 j e' : may_go_on h lim i h' -> parsed lim b e i e1 j -> p_item P s e1 = Some (e', true) -> items lim s b h e i e' j
| it_next lim s b h h' e i e1 j e2 e' k : may_go_on h lim i h' -> parsed lim b e i e1 j -> p_item P s e1 = Some (e2, false) -> moved h lim i j ->
    items lim s b h' e2 j e' k -> items lim s b h e i e' k
(** a literal stands at [i]: constants by their bytes, regular expressions by what the matcher finds *)
with spelled : option nat -> lit -> nat -> bytes -> Prop :=
| sp_bytes lim l i w : p_kind P l = KBytes w -> firstn (length w) (rest_at lim i) = w -> spelled lim l i w
| sp_int lim l i w : p_kind P l = KInt w -> firstn (length w) (rest_at lim i) = w -> spelled lim l i w
| sp_rx lim l i t n : p_kind P l = KRegexp -> p_rx P [l] (rest_at lim i) (ended_b lim) = RTok t n -> spelled lim l i (firstn n (rest_at lim i)).
End Spec.

(** What is assumed about leaf parsers and the matcher of regular expressions (for those of the runtime this is C21, C22, C59): they take
    bytes that are there, and when they decide before the input is complete, more input does not change the decision. *)
Record leaf_ok {E} (P : prog E) : Prop := mkLeafOk {
  lo_var_len : forall s e av fin n, p_var P s e av fin = VOk n -> n <= length av;
  lo_rx_len : forall ls av fin l n, p_rx P ls av fin = RTok l n -> n <= length av;
  lo_var : forall s e av more fin, p_var P s e av false <> VWait -> p_var P s e (av ++ more) fin = p_var P s e av false;
  lo_rx : forall ls av more fin, p_rx P ls av false <> RWait -> p_rx P ls (av ++ more) fin = p_rx P ls av false }.
