(** Model of backtracking (&try, backtrack()) in the parsing code the Spicy compiler generates:
    spicy/toolchain/src/compiler/codegen/parser-builder.cc (initBacktracking, finishBacktracking, the code around a field and around a unit's
    parse function), spicy/runtime/include/parser.h (Backtrack, backtrack()).

    Parsing of an atomic piece of input (integers, bytes, literals, ...) is a parameter; all of the input is there from the beginning.
    Hooks are functions of everything that has been parsed so far.  Of error recovery (SyncModel.v) there is only the catching of
    failures.  Not modelled: &size (it limits the view in a variable of its own, so what &try restores is not limited), containers, filters, random access. *)
From Verif Require Import Base SyncModel.

(** What has been parsed, for hooks and for the observer; the newest first: an atomic piece from p to q; a failure at p; going on at p after
    backtracking. *)
Inductive tev := TParsed (p q : nat) | TFailed (p : nat) | TBack (p : nat).
(** ParserState (see SyncModel.v): position, offset of the first byte the stream still has, look-ahead and its end; history *)
Record tst := mkT { t_pos : nat; t_head : nat; t_lah : slah; t_lahe : nat; t_tr : list tev }.

(** Exceptions: ParseError and other recoverable failures; Backtrack, which is a ParseError (parser.h:405-423); InvalidIterator, for access to
    data that has been trimmed; others. *)
Inductive exn := XParse | XBack | XInvalid | XOther.
Inductive tres := TDone (s : tst) | TExn (e : exn) (s : tst).

(** An atomic parser: from a position and the pending look-ahead to the end and a new look-ahead. *)
Inductive leaf := LOk (q : nat) (l : slah) (le : nat) | LFail | LOther.
Definition leafp := nat -> slah -> nat -> leaf.
(** What a hook does; parser.h:655 backtrack(). *)
Inductive act := ANone | AFail | ABack | AOther.
Definition thook := list tev -> act.

(** The parse tree of a unit.  A field: &try or not, its hook, its %error hook, what it parses.  A unit: fields, %error hook.  [BSync]: fields up to a
    synchronization point, where the search goes on after a failure (None: not found), fields from there on. *)
Inductive body :=
| BLeaf (l : leafp)
| BUnit (fs : fields) (err : thook)
| BSync (fs : fields) (search : nat -> option nat) (rest : fields)
with fields :=
| FNil
| FCons (try : bool) (h : thook) (err : thook) (b : body) (fs : fields).

(** parser-builder.cc:2783-2793 trimInput *)
Definition t_trim (trim : bool) (s : tst) : tst := if trim then mkT (t_pos s) (Nat.max (t_head s) (t_pos s)) (t_lah s) (t_lahe s) (t_tr s) else s.
Definition t_log (s : tst) (e : tev) : tst := mkT (t_pos s) (t_head s) (t_lah s) (t_lahe s) (e :: t_tr s).

Definition exn_of (a : act) : option exn := match a with ANone => None | AFail => Some XParse | ABack => Some XBack | AOther => Some XOther end.
(** A hook in a catch block, which rethrows unless the hook throws itself: parser-builder.cc:279-298 (units), 745-759 (fields). *)
Definition on_error (h : thook) (e : exn) (s : tst) : tres :=
  match exn_of (h (t_tr s)) with Some e' => TExn e' s | None => TExn e s end.

(** A field's own hook, behind its parsing: parser-builder.cc:1037-1040 *)
Definition after_field (h : thook) (r : tres) : tres :=
  match r with TDone s => match exn_of (h (t_tr s)) with Some e => TExn e s | None => TDone s end | _ => r end.

(** parser-builder.cc:3095-3112 initBacktracking, finishBacktracking: [r] is the outcome of the field with trimming off; only [cur] is
    restored. *)
Definition backtracking (trim : bool) (s : tst) (r : tres) : tres :=
  match r with
  | TDone s' => TDone (t_trim trim s')
  | TExn XBack s' => TDone (t_trim trim (t_log (mkT (t_pos s) (t_head s') (t_lah s') (t_lahe s') (t_tr s')) (TBack (t_pos s))))
  | _ => r
  end.

Fixpoint parse_body (b : body) (trim : bool) (s : tst) : tres :=
  match b with
  | BLeaf l =>
      if Nat.ltb (t_pos s) (t_head s) then TExn XInvalid s
      else match l (t_pos s) (t_lah s) (t_lahe s) with
           | LOk q l' e' => TDone (t_trim trim (mkT q (t_head s) l' e' (TParsed (t_pos s) q :: t_tr s)))
           | LFail => TExn XParse (t_log s (TFailed (t_pos s)))
           | LOther => TExn XOther s
           end
  | BUnit fs err =>
      (* position and look-ahead are passed by value and returned: parser-builder.cc:571-580, 700-727 *)
      match parse_fields fs trim s with
      | TDone s' => TDone s'
      | TExn e s' => on_error err e (mkT (t_pos s) (t_head s') (t_lah s) (t_lahe s) (t_tr s'))
      end
  | BSync fs search rest =>
      (* parser-builder.cc:1871-1915: any RecoverableFailure is caught *)
      match parse_fields fs trim s with
      | TDone s' => parse_fields rest trim s'
      | TExn XParse s' | TExn XBack s' =>
          match search (t_pos s') with Some p => parse_fields rest trim (mkT p (t_head s') SNone p (t_tr s')) | None => TExn XParse s' end
      | r => r
      end
  end
with parse_fields (fs : fields) (trim : bool) (s : tst) : tres :=
  match fs with
  | FNil => TDone s
  | FCons try h err b fs' =>
      (* parser-builder.cc:660-760: the try block for the field's %error hook is around the one for &try (lines 660-676, 840, 1051) *)
      let r := if try then backtracking trim s (after_field h (parse_body b false s)) else after_field h (parse_body b trim s) in
      match r with
      | TDone s' => parse_fields fs' trim s'
      | TExn e s' => on_error err e s'
      end
  end.
Definition t_init : tst := mkT 0 0 SNone 0 [].
Definition parse_unit (fs : fields) (trim : bool) : tres := parse_fields fs trim t_init.
