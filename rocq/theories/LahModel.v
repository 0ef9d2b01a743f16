(** Model of the parsing code the Spicy compiler generates for the productions of a unit's grammar, with its look-ahead state:
    spicy/toolchain/src/compiler/codegen/parser-builder.cc and parsers/literals.cc.  Productions and look-ahead sets are those of
    GrammarModel.v.

    The runtime's waiting functions and the leaf parsers are modelled in WaitModel.v (C21, C22, C59, C68); here they appear as
    [retry], which asks again when more input has arrived.  What a program computes from the values of its fields (conditions,
    counts, &size, stop conditions, hooks) is a parameter [prog] over an arbitrary type [E] of program states.
    Not modelled: gaps, filters, trimming, &synchronize, &try, &parse-from, &parse-at, &max-size, bitfield constants,
    skipped regular expressions as look-ahead symbols. *)
From Verif Require Import Base GrammarModel.

(** How a literal appears in the input: bytes constants (literals.cc:76-143); integer constants, by their encoding
    (literals.cc:279-350); regular expressions (literals.cc:148-277). *)
Inductive kind := KBytes (w : bytes) | KInt (w : bytes) | KRegexp.
(** productions/look-ahead.h look_ahead::Default *)
Inductive ldefault := DNone | DFirst | DSecond.
(** Answers of a leaf parser and of the token matcher of regular expressions given the input available so far; the length is that of
    the bytes taken. *)
Inductive vres := VWait | VFail | VOk (n : nat).
Inductive rxres := RWait | RNone | RTok (l : lit) (n : nat).
(** parser-builder.h look_ahead: None (0), Eod (-1), token id *)
Inductive lah := LNone | LEod | LTok (l : lit).

(** Counter; ForEach *)
Inductive loop (E : Type) := LCount (n : E -> nat) | LEach (eod_ok : bool).
Arguments LCount {E} n. Arguments LEach {E} eod_ok.

(** A compiled unit with everything it uses.  Symbols are unique across grammars (grammar-builder.cc uses cg->uniquer()).
    [p_call]: a nested unit is parsed by its own parse function, i.e. from the root of its own grammar, with its own look-ahead sets
    (parser-builder.cc:1575-1600).  [p_inuse]: astInfo().look_aheads_in_use (codegen.cc:75-100).  [p_field], [p_item]: storing a value and
    running hooks, &requires etc. for a field / an element of a container; None is an error; the flag of [p_item] is its stop
    condition (parser-builder.cc:2684-2760). *)
Record prog (E : Type) := mkProg {
  p_prod : sym -> option prod;
  p_lahs : sym -> list sym * list sym;
  p_call : sym -> option sym;
  p_default : sym -> ldefault;
  p_kind : lit -> kind;
  p_inuse : lit -> bool;
  p_rx : list lit -> bytes -> bool -> rxres;
  p_var : sym -> E -> bytes -> bool -> vres;
  p_cond : sym -> E -> bool;
  p_size : sym -> E -> option nat;
  p_case : sym -> E -> option nat;
  p_loop : sym -> loop E;
  p_field : sym -> bytes -> E -> option E;
  p_item : sym -> E -> option (E * bool) }.
Arguments p_prod {E}. Arguments p_lahs {E}. Arguments p_call {E}. Arguments p_default {E}. Arguments p_kind {E}. Arguments p_inuse {E}.
Arguments p_rx {E}. Arguments p_var {E}. Arguments p_cond {E}. Arguments p_size {E}. Arguments p_case {E}. Arguments p_loop {E}.
Arguments p_field {E}. Arguments p_item {E}.

(** What the host will feed: all the data, and whether it then freezes the stream. *)
Record input := mkIn { i_data : bytes; i_closed : bool }.
(** Parser state: position of [cur]; how much input has arrived; the sizes of the next pieces to arrive; frozen; limit of [cur] set by &size
    (offset); look-ahead and its end; program state.  parser-builder.h ParserState *)
Record st (E : Type) := mkSt {
  s_pos : nat; s_arr : nat; s_sched : list nat; s_frozen : bool; s_lim : option nat; s_lah : lah; s_lahe : nat; s_env : E }.
Arguments mkSt {E}. Arguments s_pos {E}. Arguments s_arr {E}. Arguments s_sched {E}. Arguments s_frozen {E}. Arguments s_lim {E}.
Arguments s_lah {E}. Arguments s_lahe {E}. Arguments s_env {E}.

(** Outcome: parsed; parse error (or other exception); suspended, waiting for input that never comes; the bound on the depth of recursion
    and loop iterations is too small. *)
Inductive result (E : Type) := Done (x : st E) | Fail | Suspended | NoFuel.
Arguments Done {E} x. Arguments Fail {E}. Arguments Suspended {E}. Arguments NoFuel {E}.
Definition andthen {E} (r : result E) (k : st E -> result E) : result E :=
  match r with Done x => k x | Fail => Fail | Suspended => Suspended | NoFuel => NoFuel end.

Section Run.
Context {E : Type} (P : prog E) (I : input).
Local Notation len := (length (i_data I)).

Definition set_pos (x : st E) (n : nat) : st E := mkSt n (s_arr x) (s_sched x) (s_frozen x) (s_lim x) (s_lah x) (s_lahe x) (s_env x).
Definition set_lim (x : st E) (l : option nat) : st E := mkSt (s_pos x) (s_arr x) (s_sched x) (s_frozen x) l (s_lah x) (s_lahe x) (s_env x).
Definition set_lah (x : st E) (l : lah) (e : nat) : st E := mkSt (s_pos x) (s_arr x) (s_sched x) (s_frozen x) (s_lim x) l e (s_env x).
Definition set_env (x : st E) (e : E) : st E := mkSt (s_pos x) (s_arr x) (s_sched x) (s_frozen x) (s_lim x) (s_lah x) (s_lahe x) e.

(** The input [cur] covers now: View::data; and View::isComplete: frozen, or limited with everything up to the limit there. *)
Definition cut (lim : option nat) (n : nat) : nat := match lim with Some l => Nat.min l n | None => n end.
Definition avail (x : st E) : bytes := skipn (s_pos x) (firstn (cut (s_lim x) (s_arr x)) (i_data I)).
Definition view_complete (x : st E) : bool := s_frozen x || match s_lim x with Some l => Nat.leb l (s_arr x) | None => false end.
(** What happens between a suspension and the next resumption: the next piece arrives (or the rest of the data if no more pieces are
    listed), finally the stream is frozen. *)
Definition pull (x : st E) : option (st E) :=
  match s_sched x with
  | k :: ks => Some (mkSt (s_pos x) (Nat.min (s_arr x + k) len) ks (s_frozen x) (s_lim x) (s_lah x) (s_lahe x) (s_env x))
  | [] =>
      if Nat.ltb (s_arr x) len
      then Some (mkSt (s_pos x) len [] (s_frozen x) (s_lim x) (s_lah x) (s_lahe x) (s_env x))
      else if i_closed I && negb (s_frozen x)
           then Some (mkSt (s_pos x) (s_arr x) [] true (s_lim x) (s_lah x) (s_lahe x) (s_env x))
           else None
  end.
(** parser.cc:163-235: look at the input, and as long as that does not decide anything, suspend and look again.  [f] gets the available
    input and whether it is complete. *)
Fixpoint retry_loop {A} (n : nat) (f : bytes -> bool -> option A) (x : st E) : option (A * st E) :=
  match f (avail x) (view_complete x) with
  | Some a => Some (a, x)
  | None =>
      match n with
      | O => None
      | S n' => match pull x with Some x' => retry_loop n' f x' | None => None end
      end
  end.
Definition retry {A} (f : bytes -> bool -> option A) (x : st E) : option (A * st E) := retry_loop (3 + length (s_sched x)) f x.

(** parser.cc:194-206 waitForInputOrEod(min) *)
Definition wait_or_eod (n : nat) : st E -> option (bool * st E) :=
  retry (fun av fin => if Nat.leb n (length av) then Some true else if fin then Some false else None).
(** parser.cc:278-295 atEod *)
Definition at_eod (x : st E) : option (bool * st E) :=
  match wait_or_eod 1 x with Some (b, x') => Some (negb b, x') | None => None end.

Definition bytes_eqb (a b : bytes) : bool := if list_eq_dec Z.eq_dec a b then true else false.
(** View::startsWith *)
Definition starts_with (w av : bytes) : bool := Nat.leb (length w) (length av) && bytes_eqb w (firstn (length w) av).

Definition lit_of (s : sym) : option lit := match p_prod P s with Some p => token_id p | None => None end.
Definition is_rx (l : lit) : bool := match p_kind P l with KRegexp => true | _ => false end.
(** isLiteral and tokenID of the productions of a look-ahead set *)
Definition token_ids (v : list sym) : list lit := flat_map (fun s => match lit_of s with Some l => [l] | None => [] end) v.

(** parser-builder.cc:1196-1249: the regular expressions of the set, matched together *)
Definition look_regexps (ls : list lit) (x : st E) : result E :=
  match retry (fun av fin => match p_rx P ls av fin with RWait => if fin then Some RWait else None | r => Some r end) x with
  | None => Suspended
  | Some (RWait, x) => Done (set_lah x LEod (s_pos x))
  | Some (RNone, x) => Done (set_lah x LNone (s_pos x))
  | Some (RTok l n, x) => Done (set_lah x (LTok l) (s_pos x + n))
  end.
(** literals.cc:137-143 and 327-341: bytes and integer constants in LiteralMode::Try; the result is the length of the match or 0 *)
Definition try_literal (w : bytes) (x : st E) : option (nat * st E) :=
  match wait_or_eod (length w) x with
  | None => None
  | Some (ok, x) => Some (if ok && starts_with w (avail x) then length w else 0, x)
  end.
(** parser-builder.cc:1252-1304: the other literals, one after the other; [first] is first_token *)
Fixpoint look_others (first : bool) (ls : list lit) (x : st E) : result E :=
  match ls with
  | [] => Done x
  | l :: ls' =>
      match p_kind P l with
      | KRegexp => look_others first ls' x
      | KBytes w | KInt w =>
          match try_literal w x with
          | None => Suspended
          | Some (n, x) =>
              let i := s_pos x + n in
              if first then look_others false ls' (if Nat.eqb n 0 then x else set_lah x (LTok l) i)
              else if negb (Nat.eqb n 0) && Nat.leb (s_lahe x) i
              then match s_lah x with
                   | LNone => look_others false ls' (set_lah x (LTok l) i)
                   | _ => if Nat.eqb i (s_lahe x) then Fail else look_others false ls' (set_lah x (LTok l) i)
                   end
              else look_others false ls' x
          end
      end
  end.
(** parser-builder.cc:1126-1321 getLookAhead for the tokens [ls] *)
Definition get_look_ahead (ls : list lit) (x : st E) : result E :=
  match at_eod x with
  | None => Suspended
  | Some (true, x) => Done (set_lah x LEod (s_lahe x))
  | Some (false, x) =>
      match filter is_rx ls with
      | [] => look_others true ls x
      | rs => andthen (look_regexps rs x) (look_others false ls)
      end
  end.

(** parser-builder.cc:1945-2009 parseLookAhead: what the generated switch statement does.  A case without expressions is the default of a HILTI
    switch (hilti/toolchain/include/ast/statements/switch.h:40, 100-107; the first one counts), hence an alternative without literals
    is taken if nothing else applies. *)
Inductive choice := First | Second | Neither | EodError.
Definition is_epsilon (s : sym) : bool := match p_prod P s with Some PEpsilon => true | _ => false end.
Definition null {A} (l : list A) : bool := match l with [] => true | _ => false end.
Definition choose (s a b : sym) (l : lah) : choice :=
  let (v0, v1) := p_lahs P s in
  let c1 := token_ids v0 in
  let c2 := token_ids v1 in
  let none1 := match p_default P s with DFirst => true | _ => false end in
  let none2 := match p_default P s with DSecond => true | _ => false end in
  let eod1 := null v0 && is_epsilon a in
  let eod2 := negb eod1 && (null v1 && is_epsilon b) in
  if match l with LNone => none1 | LEod => eod1 | LTok t => mem t c1 end then First
  else if match l with LNone => none2 | LEod => eod2 | LTok t => mem t c2 end then Second
  else match l with
       | LEod => EodError
       | _ => if null c1 && negb none1 && negb eod1 then First
              else if null c2 && negb none2 && negb eod2 then Second
              else Neither
       end.
(** parser-builder.cc:1949-1953: get a look-ahead unless there is one already.  The set is ordered by symbol (production.h:300-308). *)
Definition look (s : sym) (x : st E) : result E :=
  match s_lah x with
  | LNone => let (v0, v1) := p_lahs P s in get_look_ahead (token_ids (union v0 v1)) x
  | _ => Done x
  end.

(** After a terminal: store the value, run hooks. *)
Definition field (s : sym) (w : bytes) (x : st E) : result E :=
  match p_field P s w (s_env x) with Some e => Done (set_env x e) | None => Fail end.
Definition between (i j : nat) : bytes := firstn (j - i) (skipn i (i_data I)).
(** literals.cc:76-135, 157-253, 279-326: parse a literal (LiteralMode::Default and Skip); parser-builder.cc:3079-3093 consumeLookAhead *)
Definition literal (s : sym) (l : lit) (x : st E) : result E :=
  match p_inuse P l, s_lah x with
  | true, (LEod | LTok _) =>
      match s_lah x with
      | LTok t =>
          if negb (Nat.eqb t l) then Fail
          else if match p_kind P l with KBytes w => bytes_eqb w (between (s_pos x) (s_lahe x)) | _ => true end
          then field s (between (s_pos x) (s_lahe x)) (set_pos (set_lah x LNone (s_lahe x)) (s_lahe x))
          else Fail
      | _ => Fail
      end
  | _, _ =>
      match p_kind P l with
      | KBytes w | KInt w =>
          match wait_or_eod (length w) x with
          | None => Suspended
          | Some (ok, x) => if ok && starts_with w (avail x) then field s w (set_pos x (s_pos x + length w)) else Fail
          end
      | KRegexp =>
          match retry (fun av fin => match p_rx P [l] av fin with RWait => if fin then Some RWait else None | r => Some r end) x with
          | None => Suspended
          | Some (RWait, x) => NoFuel (* asks again for ever *)
          | Some (RTok _ n, x) => field s (firstn n (avail x)) (set_pos x (s_pos x + n))
          | Some (_, x) => Fail
          end
      end
  end.
(** parser-builder.cc:2106-2108 and parsers/types.cc *)
Definition variable (s : sym) (x : st E) : result E :=
  match retry (fun av fin => match p_var P s (s_env x) av fin with VWait => None | r => Some r end) x with
  | None => Suspended
  | Some (VOk n, x) => field s (firstn n (avail x)) (set_pos x (s_pos x + n))
  | Some (_, x) => Fail
  end.

(** Fields with &size, and &size of blocks, switches and units: limit the view, parse, check that all was consumed, continue behind.
    parser-builder.cc:881-955, 1590-1635 (preAggregate, postAggregate), 1800-1940, 203-222.  The look-ahead state stays as it is. *)
Definition sized (n : option nat) (body : st E -> result E) (x : st E) : result E :=
  match n with
  | None => body x
  | Some n =>
      andthen (body (set_lim x (Some (cut (s_lim x) (s_pos x + n)))))
        (fun y => if Nat.ltb (s_pos y) (s_pos x + n) then Fail
                  else Done (set_lim (set_pos y (s_pos x + n)) (s_lim x)))
  end.

Fixpoint seq (parse : sym -> st E -> result E) (l : list sym) (x : st E) : result E :=
  match l with [] => Done x | s :: l' => andthen (parse s x) (seq parse l') end.
(** The element of a container has been parsed. *)
Definition item (s : sym) (x : st E) (k : bool -> st E -> result E) : result E :=
  match p_item P s (s_env x) with Some (e, stop) => k stop (set_env x e) | None => Fail end.
(** parser-builder.cc:1669-1728 Counter *)
Fixpoint count (parse : st E -> result E) (s : sym) (n : nat) (x : st E) : result E :=
  match n with
  | O => Done x
  | S n' => andthen (parse x) (fun x => item s x (fun stop x => if stop then Done x else count parse s n' x))
  end.
(** parser-builder.cc:3113-3121 finishLoopBody *)
Definition progressed (old : nat) (x : st E) (k : st E -> result E) : result E :=
  if Nat.eqb (s_pos x) old
  then match at_eod x with None => Suspended | Some (true, x) => k x | Some (false, _) => Fail end
  else k x.
(** parser-builder.cc:1736-1752 ForEach; the recursion is bounded *)
Fixpoint each (m : nat) (parse : st E -> result E) (s : sym) (eod_ok : bool) (x : st E) : result E :=
  match m with
  | O => NoFuel
  | S m' =>
      let go x := andthen (parse x) (fun y => item s y (fun stop y => if stop then Done y else progressed (s_pos x) y (each m' parse s eod_ok))) in
      if eod_ok then match at_eod x with None => Suspended | Some (true, x) => Done x | Some (false, x) => go x end
      else go x
  end.
(** parser-builder.cc:2103-2165 While with look-ahead; [s] is the loop, [l1] its look-ahead production, [eps] and [l2] the alternatives *)
Fixpoint while (m : nat) (parse : st E -> result E) (s l1 eps l2 : sym) (x : st E) : result E :=
  match m with
  | O => NoFuel
  | S m' =>
      match wait_or_eod 1 x with
      | None => Suspended
      | Some (_, x) =>
          andthen (look l1 x) (fun x =>
            match choose l1 eps l2 (s_lah x) with
            | First | Neither => Done x
            | EodError => Fail
            | Second => andthen (parse x) (fun y => item s y (fun stop y => if stop then Done y else progressed (s_pos x) y (while m' parse s l1 eps l2)))
            end)
      end
  end.

(** The dispatch over productions: parser-builder.cc:1637-1668 (Block, Epsilon), 1729-1734 (Enclosure), 1760-1790 (Switch), 2011-2030 (LookAhead,
    Sequence), and the above.  A field, block, switch or look-ahead whose condition does not hold is left out. *)
Definition step (m : nat) (parse : sym -> st E -> result E) (s : sym) (p : prod) (x : st E) : result E :=
  match p with
  | PSeq ps => seq parse ps x
  | PBlock ps _ => seq parse ps x
  | PEnclosure c => parse c x
  | PEpsilon => Done x
  | PCtor l | PSkipCtor _ l => literal s l x
  | PVar _ => variable s x
  | PSwitch cs d =>
      match match p_case P s (s_env x) with Some i => nth_error cs i | None => d end with Some c => parse c x | None => Fail end
  | PLook a b =>
      andthen (look s x) (fun x =>
        match choose s a b (s_lah x) with First => parse a x | Second => parse b x | Neither | EodError => Fail end)
  | PLoop b =>
      match p_loop P s with
      | LCount n => count (parse b) s (n (s_env x)) x
      | LEach e => each m (parse b) s e x
      end
  | PWhile l1 =>
      match p_prod P l1 with
      | Some (PLook eps l2) =>
          match p_prod P l2 with Some (PSeq (b :: _)) => while m (parse b) s l1 eps l2 x | _ => Fail end
      | _ => Fail
      end
  end.
Fixpoint parse (m : nat) (s : sym) (x : st E) : result E :=
  match m with
  | O => NoFuel
  | S m' =>
      match p_prod P s with
      | None => Fail
      | Some p =>
          if p_cond P s (s_env x)
          then sized (p_size P s (s_env x))
                 (match p_call P s with Some r => parse m' r | None => step m' (parse m') s p end) x
          else match p with
               | PBlock _ es => sized (p_size P s (s_env x)) (seq (parse m') es) x
               | _ => Done x
               end
      end
  end.

(** A unit is parsed from its root, with no input yet, no look-ahead and nothing limited. *)
Definition start (sched : list nat) (e : E) : st E := mkSt 0 0 sched false None LNone 0 e.
End Run.
