(** Model of regular-expression matching: hilti/runtime/src/types/regexp.cc:69-262 (MatchState), :327-395 (match,
    matchGroups, find), :422-483 (_search_pattern), and of the loop Spicy emits for a regular-expression literal,
    spicy/toolchain/src/compiler/codegen/parsers/literals.cc:197-250.

    JustRX itself is not part of the repository (3rdparty/justrx is an empty submodule). What the code calls is modelled as a
    longest-match loop over an arbitrary deterministic automaton ([engine]); this is the behaviour regexp.h:99-140 documents
    and hilti/runtime/src/tests/regexp.cc:23-450 relies on. jrx_current_accept, of which the tests only show one value, and
    jrx_reggroups are left as parameters. *)
From Verif Require Import Base.
Open Scope Z_scope.

(** One input symbol: the byte and the assertions holding at it: JRX_ASSERTION_BOL|BOD and JRX_ASSERTION_EOL|EOD, which
    regexp.cc always sets together. *)
Definition sym := (Z * bool * bool)%type.

(** The automaton of a compiled set of patterns: the transition function ([None]: no transition), the accept ID of a state
    (positive: accepting), and whether a state has any transition at all. *)
Record engine := mkEngine {
  Q : Type;
  q0 : Q;
  delta : Q -> sym -> option Q;
  acc : Q -> Z;
  more : Q -> bool }.

Definition is_nil {A} (l : list A) : bool := match l with [] => true | _ => false end.

Section Match.
  Variable E : engine.

  (** jrx_match_state: current state, offset (JRX counts from 1, regexp.cc:215), accept ID recorded last, offset of that match *)
  Record jms := mkJ { jq : Q E; joff : Z; jacc : Z; jeo : Z }.

  (** jrx_match_state_init, as called at regexp.cc:82, 430, 438 *)
  Definition jinit : jms := mkJ (q0 E) 1 (if 0 <? acc E (q0 E) then acc E (q0 E) else 0) 1.

  Definition verdict (j : jms) : Z := if 0 <? jacc j then jacc j else 0.

  (** jrx_regexec_partial_{min,std}: the loop over the bytes of one block. [first] holds at the first byte of the block,
      [last] at its last one. [Some rc]: the matcher stopped with [rc]. *)
  Fixpoint feed (b : list Z) (first last : bool) (j : jms) : jms * option Z :=
    match b with
    | [] => (j, None)
    | c :: r =>
      match delta E (jq j) (c, first, last && is_nil r) with
      | None => (j, Some (verdict j))
      | Some q =>
        let j1 := if 0 <? acc E q then mkJ q (joff j + 1) (acc E q) (joff j + 1) else mkJ q (joff j + 1) (jacc j) (jeo j) in
        if more E q then feed r false last j1 else (j1, Some (verdict j1))
      end
    end.

  (** ... and its result: the last recorded match if this was the final data, otherwise "more data may help" *)
  Definition exec (b : list Z) (first last final : bool) (j : jms) : jms * Z :=
    match feed b first last j with
    | (j', Some rc) => (j', rc)
    | (j', None) => (j', if final && (0 <? jacc j') then jacc j' else -1)
    end.

  (** jrx_current_accept *)
  Variable cur_acc : jms -> Z.

  (** regexp.cc:69-90 MatchState::Pimpl *)
  Record mst := mkM { m_acc : Z; m_first : bool; m_done : bool; m_ms : jms }.

  (** regexp.cc:71-73, 81-83 *)
  Definition minit : mst := mkM 0 true false jinit.

  (** regexp.cc:86-88: the copy constructor; [_done] keeps its default *)
  Definition mcopy (m : mst) : mst := mkM (m_acc m) (m_first m) false (m_ms m).

  (** regexp.cc:184-233: the loop over the blocks of a view and what follows it. The [first] assertion read at :171 is
      passed for each of them. *)
  Fixpoint adv_blocks (bs : list (list Z)) (first final : bool) (start : Z) (m : mst) : mst * (Z * Z) :=
    match bs with
    | [] =>
      let a := if m_acc m =? 0 then -1 else m_acc m in
      (mkM a (m_first m) (m_done m) (m_ms m), (a, joff (m_ms m) - start))
    | b :: r =>
      let final_block := final && is_nil r in
      let '(j, rc) := exec b first final_block final_block (m_ms m) in
      if rc =? 0 then
        (mkM (m_acc m) (m_first m) (m_done m) j, (if 0 <? m_acc m then m_acc m else 0, joff j - start))
      else if 0 <? rc then
        (mkM rc (m_first m) (m_done m) j, (rc, jeo j - start))
      else adv_blocks r first final start (mkM (m_acc m) (m_first m) (m_done m) j)
    end.

  (** regexp.cc:170-234 MatchState::_advance. [bs] are the blocks of the view. *)
  Definition adv (m : mst) (bs : list (list Z)) (final : bool) : mst * (Z * Z) :=
    let first := m_first m in
    if is_nil (concat bs) then
      let a := if final && (m_acc m <=? 0) then cur_acc (m_ms m) else m_acc m in
      (mkM a (m_first m) (m_done m) (m_ms m), (if final then a else -1, 0))
    else
      adv_blocks bs first final (joff (m_ms m)) (mkM (m_acc m) false (m_done m) (m_ms m)).

  (** Errors of the interface; [Undefined]: a null pointer is dereferenced *)
  Inductive mexn := PatternError | MatchStateReuse | InvalidArgument | NotSupported | Undefined.
  Inductive mres (A : Type) := Ret (a : A) | Exc (e : mexn).
  Arguments Ret {A}. Arguments Exc {A}.

  (** regexp.cc:124-168: both advance() methods. [None]: no regular expression associated. The method taking a view returns
      the view starting at begin + offset instead of the offset. *)
  Definition advance (s : option mst) (bs : list (list Z)) (final : bool) : option mst * mres (Z * Z) :=
    match s with
    | None => (s, Exc PatternError)
    | Some m =>
      if m_done m then (s, Exc MatchStateReuse) else
      let '(m', (rc, n)) := adv m bs final in
      (Some (if 0 <=? rc then mkM (m_acc m') (m_first m') true (m_ms m') else m'), Ret (rc, n))
    end.

  (** ** Match states as program variables: regexp.cc:92-122 *)
  Inductive mop :=
  | MNew (x : nat)                                   (* x = re.tokenMatcher() *)
  | MDefault (x : nat)                               (* x = MatchState() *)
  | MCopy (x y : nat)                                (* x = y *)
  | MMove (x y : nat)                                (* x = std::move(y) *)
  | MAdvance (x : nat) (bs : list (list Z)) (final : bool).

  Definition vars := nat -> option mst.
  Definition upd (v : vars) (x : nat) (s : option mst) : vars := fun y => if Nat.eqb y x then s else v y.

  (** [std]: the regular expression was compiled with REG_STD_MATCHER *)
  Variable std : bool.

  Definition mstep (v : vars) (o : mop) : vars * mres (option (Z * Z)) :=
    match o with
    | MNew x => (upd v x (Some minit), Ret None)
    | MDefault x => (upd v x None, Ret None)
    | MCopy x y =>
      if Nat.eqb x y then (v, Ret None)
      else match v y with
           | None => (v, Exc Undefined)
           | Some m => if std then (v, Exc InvalidArgument) else (upd v x (Some (mcopy m)), Ret None)
           end
    | MMove x y => if Nat.eqb x y then (v, Ret None) else (upd (upd v x (v y)) y None, Ret None)
    | MAdvance x bs final =>
      let '(s, r) := advance (v x) bs final in
      (upd v x s, match r with Ret p => Ret (Some p) | Exc e => Exc e end)
    end.

  (** A whole program: the variables and the results, in order *)
  Fixpoint mrun (v : vars) (l : list mop) : vars * list (mres (option (Z * Z))) :=
    match l with
    | [] => (v, [])
    | o :: r => let '(v1, x) := mstep v o in let '(v2, xs) := mrun v1 r in (v2, x :: xs)
    end.

  (** ** Matching on a whole value *)

  (** regexp.cc:422-483 _search_pattern: result code, start and end of the match. For the standard matcher the bounds come
      from jrx_reggroups, group 0, which is the same interval. *)
  Definition search_pattern (data : list Z) : Z * Z * Z :=
    if is_nil data then (-1, -1, -1)
    else let '(j, rc) := exec data true true true jinit in
         if 0 <? rc then (rc, 0, jeo j - 1) else (rc, -1, -1).

  (** regexp.cc:327-332 RegExp::match *)
  Definition re_match (data : list Z) : Z := fst (fst (search_pattern data)).

  (** regexp.cc:334-339 _subslice *)
  Definition subslice (data : list Z) (so eo : Z) : list Z :=
    if (so <? 0) || (eo <? 0) then [] else firstn (Z.to_nat eo - Z.to_nat so) (skipn (Z.to_nat so) data).

  (** regexp.cc:382-409: one start position of find(): [cur] is the position, best = (rc, so, eo) *)
  Definition find_step (data : list Z) (best : Z * Z * Z) (cur : nat) : Z * Z * Z :=
    let '(brc, bso, beo) := best in
    let '(rc, so, eo) := search_pattern (skipn cur data) in
    if 0 <? rc then
      let nlen := eo - so in
      let olen := beo - bso in
      let so := so + Z.of_nat cur in
      let eo := eo + Z.of_nat cur in
      if (olen <=? nlen) && ((olen <? nlen) || (so <? bso) || (bso <? 0)) then (rc, so, eo) else best
    else best.

  (** regexp.cc:374-418 RegExp::find *)
  Definition find (data : list Z) : Z * list Z :=
    let '(rc, so, eo) := fold_left (find_step data) (List.seq 0 (length data)) (0, -1, -1) in
    if 0 <? rc then (rc, subslice data so eo)
    else (if rc =? 0 then -1 else rc, []).

  (** jrx_reggroups: start and end of each capture group, group 0 first; (-1, -1) if the group did not take part *)
  Variable groups : jms -> list (Z * Z).

  (** regexp.cc:341-372 RegExp::matchGroups, of a regular expression of [npat] patterns compiled with or without no_sub *)
  Definition match_groups (npat : nat) (no_sub : bool) (data : list Z) : mres (list (list Z)) :=
    if Nat.ltb 1 npat then Exc NotSupported
    else if no_sub then Exc NotSupported
    else
      let '(rc, so, eo) := search_pattern data in
      if 0 <? rc then
        let ms := fst (exec data true true true jinit) in
        Ret (subslice data so eo ::
             map (fun g => subslice data (fst g) (snd g)) (filter (fun g => 0 <=? fst g) (tl (groups ms))))
      else Ret [].

  (** regexp.cc:236-257 MatchState::captures; [data] are the bytes of the view *)
  Definition captures (no_sub : bool) (m : mst) (data : list Z) : list (list Z) :=
    if no_sub || (m_acc m <=? 0) || negb (m_done m) then []
    else map (fun g => subslice data (fst g) (snd g))
             (filter (fun g => (0 <=? fst g) || (0 <=? snd g)) (groups (m_ms m))).

  (** ** literals.cc:197-250: the loop emitted for a regular-expression literal *)
  Inductive presult := PMatched (rc consumed : Z) | PFailed | PLoops.

  (** What advance() sees next: the blocks of the data available and not yet consumed, and whether the input is complete.
      Running out of data, waitForInputOrEod returns once there is more or the input has ended; from then on the view is
      empty and complete, so that a negative result repeats for ever. [PLoops] also stands for the exception of a finished state, which the
      loop never reaches. *)
  Fixpoint parse_loop (s : option mst) (pos : Z) (l : list (list (list Z) * bool)) : presult :=
    match l with
    | [] =>
      match advance s [] true with
      | (_, Ret (rc, n)) => if rc <? 0 then PLoops else if rc =? 0 then PFailed else PMatched rc (pos + n)
      | (_, Exc _) => PLoops
      end
    | (bs, eod) :: r =>
      match advance s bs eod with
      | (s', Ret (rc, n)) =>
        if rc <? 0 then
          if eod then
            match advance s' [] true with
            | (_, Ret (rc', n')) =>
              if rc' <? 0 then PLoops else if rc' =? 0 then PFailed else PMatched rc' (pos + n + n')
            | (_, Exc _) => PLoops
            end
          else parse_loop s' (pos + n) r
        else if rc =? 0 then PFailed
        else PMatched rc (pos + n)
      | (_, Exc _) => PLoops
      end
    end.
  Definition parse_regexp (l : list (list (list Z) * bool)) : presult := parse_loop (Some minit) 0 l.
End Match.

Arguments Ret {A}. Arguments Exc {A}.
