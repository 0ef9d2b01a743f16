(** Model of error recovery (&synchronize) in the parsing code the Spicy compiler generates for a unit:
    spicy/toolchain/src/compiler/codegen/parser-builder.cc (getLookAhead in search mode, syncProduction, startSynchronize,
    finishSynchronize, the grouping of a unit's fields by synchronization point), parsers/literals.cc, spicy/runtime/include/util.h
    (confirm, reject), hilti/runtime/src/types/stream.cc (View::advanceToNextData, View::startsWith, View::_ensureValid).

    All of the input is there from the beginning and the stream is frozen (waiting is modelled in WaitModel.v and LahModel.v); it may
    have gaps.  What a field does is a parameter: any function from the parser state to an outcome; literals and sub-units are given
    below.  Not modelled: recovery inside of lists, profiling, the %sync_advance hook, &size and other limits on the input, filters,
    random access. *)
From Verif Require Import Base.

(** parser-builder.h look_ahead: None (0), Eod (-1), token id *)
Inductive slah := SNone | SEod | STok (id : nat).
Definition lah_set (l : slah) : bool := match l with SNone => false | _ => true end.

(** What an observer sees of a unit's parsing: field number i starts at an offset and is parsed or fails; the %synced hook of the unit runs for
    the synchronization point k at an offset; no synchronization was found for k. *)
Inductive event := EvField (i p : nat) (ok : bool) | EvSynced (k p : nat) | EvLost (k : nat).

(** ParserState: offset of [cur]; offset of the first byte the stream still has (everything before has been trimmed); look-ahead and
    its end; whether an error is pending, i.e. the parser is synchronizing or in trial mode.  [p_tr] is history, newest event
    first.  parser-builder.h ParserState; the unset iterator for the look-ahead's end compares like offset 0 (stream.h:604-622) *)
Record pst := mkP { p_pos : nat; p_head : nat; p_lah : slah; p_lahe : nat; p_err : bool; p_tr : list event }.
Definition set_pos (s : pst) (p : nat) : pst := mkP p (p_head s) (p_lah s) (p_lahe s) (p_err s) (p_tr s).
Definition set_head (s : pst) (h : nat) : pst := mkP (p_pos s) h (p_lah s) (p_lahe s) (p_err s) (p_tr s).
Definition set_lah (s : pst) (l : slah) (e : nat) : pst := mkP (p_pos s) (p_head s) l e (p_err s) (p_tr s).
Definition set_err (s : pst) (b : bool) : pst := mkP (p_pos s) (p_head s) (p_lah s) (p_lahe s) b (p_tr s).
Definition log (s : pst) (e : event) : pst := mkP (p_pos s) (p_head s) (p_lah s) (p_lahe s) (p_err s) (e :: p_tr s).

(** How a piece of parsing ends: done; a RecoverableFailure (a parse error, missing data, reject) leaving the given state in the function that
    will catch it; any other exception. *)
Inductive fres := Done (s : pst) | Fail (s : pst) | Fatal.

(** Literals other than regular expressions: bytes constants, integer constants by their encoding (literals.cc:68-143, 279-350). *)
Inductive tok := TBytes (id : nat) (w : bytes) | TInt (id : nat) (w : bytes).
Definition tok_id (t : tok) : nat := match t with TBytes i _ => i | TInt i _ => i end.
Definition tok_word (t : tok) : bytes := match t with TBytes _ w => w | TInt _ w => w end.
(** Answer of the token matcher for the joint regular expressions given all the bytes fed so far and whether nothing will follow: no
    match, undecided, token and length of the match (counted from the first byte fed). *)
Inductive rxres := RNo | RMore | RTok (id n : nat).
(** What a synchronization point searches for: the literals its parsing may begin with, or the literal given by the unit properties
    %synchronize-at or %synchronize-after (parser-builder.cc:1366-1441). *)
Inductive smode := SFirst | SAt | SAfter.
Record ssp := mkS { s_mode : smode; s_rx : option (bytes -> bool -> rxres); s_lits : list tok }.

(** A field: its parsing, including hooks; its &synchronize attribute. *)
Record ufield := mkF { f_run : pst -> fres; f_sync : option ssp }.
(** What a hook does: nothing, confirm, reject, throw some other exception. *)
Inductive hook := HNone | HConfirm | HReject | HThrow.
(** A unit: its fields (finalizeUnit, which runs %done, is a field at the end) and its %synced hook. *)
Record unit_ := mkU { u_fields : list ufield; u_synced : pst -> hook }.

Section Sync.
(** The input (None: a byte in a gap); whether the parser trims the stream (ParserState::trim); a bound on the number of iterations of a
    loop, beyond which the model gives up (Fatal). *)
Context (D : list (option Z)) (TR : bool) (N : nat).
Local Notation len := (length D).

(** parser-builder.cc:2783-2793 trimInput; Chain::trim does not go back *)
Definition trim_input (s : pst) : pst := if TR then set_head s (Nat.max (p_head s) (p_pos s)) else s.
(** parser.h:644-650, parser.cc:251-261 atEod on a frozen stream; a stream trimmed to its end has size 0 (stream.h:1638-1655) *)
Definition at_eod (s : pst) : bool := Nat.leb len (Nat.max (p_pos s) (p_head s)).
(** The number of bytes in gaps at the beginning. *)
Fixpoint gaps (l : list (option Z)) : nat := match l with None :: l' => S (gaps l') | _ => O end.
(** stream.cc:238-281 View::advanceToNextData; parser-builder.cc:2981-3011 *)
Definition next_pos (s : pst) : nat :=
  let q := if Nat.ltb (p_pos s) (p_head s) then p_head s else S (p_pos s) in
  if Nat.ltb q len then q + gaps (skipn q D) else S (p_pos s).
Definition advance (s : pst) : pst := trim_input (set_pos s (next_pos s)).

(** stream.cc:412-429 View::startsWith: comparing stops at the first difference, reading in a gap throws MissingData. *)
Inductive mres := MNo | MMissing | MYes (e : nat).
Fixpoint starts_with (w : bytes) (l : list (option Z)) : option bool :=
  match w with
  | [] => Some true
  | b :: w' => match l with
               | [] => Some false
               | None :: _ => None
               | Some c :: l' => if Z.eqb c b then starts_with w' l' else Some false
               end
  end.
(** Unpacking an integer reads all of its bytes before they are compared. *)
Fixpoint has_gap (l : list (option Z)) : bool := match l with [] => false | None :: _ => true | Some _ :: l' => has_gap l' end.
(** literals.cc:129-140 (bytes), 336-350 (integers), in mode Search: the end of the literal if it is next in the input, else the current
    position, which stands for no match. *)
Definition match_tok (t : tok) (p : nat) : mres :=
  let w := tok_word t in
  if Nat.ltb (len - p) (length w) then MNo
  else
    let l := firstn (length w) (skipn p D) in
    match t with
    | TBytes _ _ => match starts_with w l with None => MMissing | Some false => MNo | Some true => if Nat.eqb (length w) 0 then MNo else MYes (p + length w) end
    | TInt _ _ =>
        if has_gap l then MMissing
        else match starts_with w l with Some true => if Nat.eqb (length w) 0 then MNo else MYes (p + length w) | _ => MNo end
    end.

(** Outcome of one look at the input at the current position: go on; begin anew at the position given (`continue` after MissingData); ambiguous
    match (a parse error); InvalidIterator. *)
Inductive round := RNext (s : pst) | RAgain (s : pst) | RAmbiguous (s : pst) | RFatal.

(** The data up to the next gap, and whether it is the end of the data. *)
Fixpoint run (l : list (option Z)) : bytes := match l with Some b :: l' => b :: run l' | _ => [] end.
Fixpoint run_final (l : list (option Z)) : bool := match l with Some _ :: l' => run_final l' | None :: _ => false | [] => true end.

(** parser-builder.cc:1176-1252: the joint regular expression.  Views that start before what is left of the stream are invalid
    (stream.h:1611-1620).  MissingData: lines 1160-1170 with 1207-1211; the matcher is not reset. *)
Fixpoint rx_loop (fuel : nat) (re : bytes -> bool -> rxres) (fed : bytes) (s : pst) : round :=
  match fuel with
  | O => RFatal
  | S fuel' =>
      if Nat.ltb (p_pos s) (p_head s) && negb (at_eod s) then RFatal
      else
        let l := skipn (p_pos s) D in
        let fed' := fed ++ run l in
        match re fed' (run_final l) with
        | RTok id n => RNext (set_lah s (STok id) (p_pos s + n - length fed))
        | RNo => RNext (set_lah s SNone (p_pos s))
        | RMore => if run_final l then RNext (set_lah s SEod (p_pos s)) else rx_loop fuel' re fed' (advance s)
        end
  end.

(** parser-builder.cc:1254-1302: the other literals, one after the other. *)
Fixpoint lits (first : bool) (ts : list tok) (s : pst) : round :=
  match ts with
  | [] => RNext s
  | t :: ts' =>
      if Nat.ltb (p_pos s) (p_head s) then RFatal
      else
        match match_tok t (p_pos s) with
        | MMissing => RAgain (advance s)
        | MNo => lits false ts' s
        | MYes e =>
            if first then lits false ts' (set_lah s (STok (tok_id t)) e)
            else if Nat.leb (p_lahe s) e
                 then if lah_set (p_lah s) && Nat.eqb e (p_lahe s) then RAmbiguous s
                      else lits false ts' (set_lah s (STok (tok_id t)) e)
                 else lits false ts' s
        end
  end.

Definition one_round (sp : ssp) (s : pst) : round :=
  match s_rx sp with
  | None => lits true (s_lits sp) s
  | Some re => match rx_loop N re [] s with RNext s' => lits false (s_lits sp) s' | r => r end
  end.

(** parser-builder.cc:1313-1322: the loop of search mode *)
Fixpoint search_loop (fuel : nat) (sp : ssp) (s : pst) : fres :=
  match fuel with
  | O => Fatal
  | S fuel' =>
      match one_round sp s with
      | RFatal => Fatal
      | RAmbiguous s' => Fail s'
      | RAgain s' => search_loop fuel' sp s'
      | RNext s' => if at_eod s' || lah_set (p_lah s') then Done s' else search_loop fuel' sp (advance s')
      end
  end.
(** parser-builder.cc:1128-1327 getLookAhead(tokens, …, LiteralMode::Search) *)
Definition get_look_ahead (sp : ssp) (s : pst) : fres :=
  if at_eod s then Done (set_lah s SEod (p_lahe s)) else search_loop N sp s.

(** parser-builder.cc:3079-3093 consumeLookAhead *)
Definition consume (s : pst) : pst := trim_input (set_pos (set_lah s SNone (p_lahe s)) (p_lahe s)).

(** parser-builder.cc:1333-1442 syncProduction.  %synchronize-at/-after search with their own look-ahead variable, which starts with the
    value of the other (line 1408). *)
Definition sync_production (sp : ssp) (s : pst) : fres :=
  match get_look_ahead sp s with
  | Fatal => Fatal
  | Fail s' => Fail s'
  | Done s' =>
      if at_eod s' || negb (lah_set (p_lah s')) then Fail s'
      else match s_mode sp with
           | SFirst => Done s'
           | SAt => Done (set_lah s' (p_lah s) (p_lahe s'))
           | SAfter => let s'' := consume s' in Done (set_lah s'' (p_lah s) (p_lahe s''))
           end
  end.

(** parser-builder.cc:3024-3060 beforeHook, afterHook; util.h:42-70 confirm, reject *)
Definition run_hook (h : hook) (s : pst) : fres :=
  match h with HNone => Done s | HConfirm => Done (set_err s false) | HReject => Fail s | HThrow => Fatal end.

(** parser-builder.cc:1829-1850: the closest synchronization point behind each field. *)
Definition is_sync (fs : list ufield) (j : nat) : bool := match nth_error fs j with Some f => match f_sync f with Some _ => true | None => false end | None => false end.
Definition sync_point (fs : list ufield) (i : nat) : option nat := find (is_sync fs) (List.seq (S i) (length fs - S i)).
Definition oeqb (a b : option nat) : bool :=
  match a, b with Some x, Some y => Nat.eqb x y | None, None => true | _, _ => false end.
(** parser-builder.cc:1852-1860: adjacent fields with the same synchronization point; built from the right here. *)
Fixpoint group (l : list (nat * option nat)) : list (list nat * option nat) :=
  match l with
  | [] => []
  | (i, s) :: l' =>
      match group l' with
      | (g, s') :: gs => if oeqb s s' then (i :: g, s) :: gs else ([i], s) :: (g, s') :: gs
      | [] => [([i], s)]
      end
  end.
Definition groups (fs : list ufield) : list (list nat * option nat) :=
  group (map (fun i => (i, sync_point fs i)) (List.seq 0 (length fs))).

(** parser-builder.cc:1862-1867 parse_field, one after the other *)
Fixpoint run_fields (fs : list ufield) (is : list nat) (s : pst) : fres :=
  match is with
  | [] => Done s
  | i :: is' =>
      match nth_error fs i with
      | None => Done s
      | Some f =>
          match f_run f s with
          | Done s' => run_fields fs is' (mkP (p_pos s') (p_head s') (p_lah s') (p_lahe s') (p_err s') (EvField i (p_pos s) true :: p_tr s))
          | Fail s' => Fail (mkP (p_pos s') (p_head s') (p_lah s') (p_lahe s') (p_err s') (EvField i (p_pos s) false :: p_tr s))
          | Fatal => Fatal
          end
      end
  end.

(** parser-builder.cc:1540-1586 startSynchronize and 1589-1593 finishSynchronize: the loop around everything behind ([body]) the
    fields the synchronization point k belongs to. *)
Fixpoint sync_loop (fuel : nat) (synced : pst -> hook) (sp : ssp) (k : nat) (body : pst -> fres) (s : pst) : fres :=
  match fuel with
  | O => Fatal
  | S fuel' =>
      let try_body (trial : bool) (s1 : pst) :=
        match body s1 with
        | Done s2 => Done s2
        | Fatal => Fatal
        | Fail s2 => if negb trial || negb (p_err s2) then Fail s2 else sync_loop fuel' synced sp k body (advance s2)
        end in
      if p_err s
      then match sync_production sp s with
           | Fatal => Fatal
           | Fail s1 => Fail (log s1 (EvLost k))
           | Done s1 =>
               let s2 := log s1 (EvSynced k (p_pos s1)) in
               match run_hook (synced s1) s2 with Done s3 => try_body true s3 | r => r end
           end
      else try_body false s
  end.

(** parser-builder.cc:1871-1915: the groups of fields; the fields of a group with a synchronization point are parsed inside of a `try`. *)
Fixpoint exec (u : unit_) (gs : list (list nat * option nat)) (s : pst) : fres :=
  match gs with
  | [] => Done s
  | (is, None) :: gs' =>
      match run_fields (u_fields u) is s with Done s1 => exec u gs' s1 | r => r end
  | (is, Some k) :: gs' =>
      let sp := match nth_error (u_fields u) k with Some f => f_sync f | None => None end in
      match sp with
      | None => Fatal
      | Some sp =>
          match run_fields (u_fields u) is s with
          | Fatal => Fatal
          | Done s1 => sync_loop N (u_synced u) sp k (exec u gs') s1
          | Fail s1 => sync_loop N (u_synced u) sp k (exec u gs') (set_err s1 true)
          end
      end
  end.
Definition run_unit (u : unit_) (s : pst) : fres := exec u (groups (u_fields u)) s.

(** parser-builder.cc:2412-2590, the parse functions the host calls: fail if the error is still pending at the end. *)
Definition init_state : pst := mkP 0 0 SNone 0 false [].
Definition parse (u : unit_) : fres :=
  match run_unit u init_state with Done s => if p_err s then Fail s else Done s | r => r end.

(** Fields. *)
(** A unit's parse method gets [cur], look-ahead and error by value and returns them (parser-builder.cc:571-580, 2203-2213): when it throws, the
    caller keeps its own; only the stream has changed. *)
Definition subunit (u : unit_) (s : pst) : fres :=
  match run_unit u (mkP (p_pos s) (p_head s) (p_lah s) (p_lahe s) (p_err s) []) with
  | Done s' => Done (mkP (p_pos s') (p_head s') (p_lah s') (p_lahe s') (p_err s') (p_tr s))
  | Fail s' => Fail (set_head s (p_head s'))
  | Fatal => Fatal
  end.

(** literals.cc:68-127, 279-335 in mode Default: consumes the look-ahead if there is one; bytes are compared once more then (99-106),
    integers are not. *)
Definition literal (t : tok) (s : pst) : fres :=
  let w := tok_word t in
  if lah_set (p_lah s)
  then
    match p_lah s with
    | STok id =>
        if negb (Nat.eqb id (tok_id t)) then Fail s
        else match t with
             | TBytes _ _ =>
                 if Nat.ltb (p_pos s) (p_head s) then Fatal
                 else match starts_with w (firstn (p_lahe s - p_pos s) (skipn (p_pos s) D)) with
                      | Some true => if Nat.eqb (length w) (p_lahe s - p_pos s) then Done (consume s) else Fail s
                      | _ => Fail s
                      end
             | TInt _ _ => Done (consume s)
             end
    | _ => Fail s
    end
  else if Nat.ltb (len - p_pos s) (length w) then Fail s
  else if Nat.ltb (p_pos s) (p_head s) then Fatal
  else match starts_with w (skipn (p_pos s) D) with
       | Some true => Done (trim_input (set_pos s (p_pos s + length w)))
       | _ => Fail s
       end.
(** A field followed by its hook, which sees the pending error. *)
Definition with_hook (r : pst -> fres) (h : pst -> hook) (s : pst) : fres :=
  match r s with Done s' => run_hook (h s') s' | x => x end.
End Sync.
