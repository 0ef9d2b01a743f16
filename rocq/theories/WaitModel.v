(** Waiting for input and parsing bytes fields: spicy/runtime/src/parser.cc, spicy/runtime/include/parser.h and the code
    the compiler generates for bytes fields (spicy/toolchain/src/compiler/codegen/parsers/types.cc, literals.cc,
    parser-builder.cc). A parser runs in a fiber; when it waits it yields, and the host changes the stream before it
    resumes the parser. A schedule lists what the host does between resumptions. Filters are not attached. *)
From Verif Require Import Base StreamModel ViewModel.

(** What the host does with the stream: Stream::append(Bytes), append(.., NonOwning), append(nullptr, n), freeze()
    (hilti/runtime/src/types/stream.cc:500-519, include/types/stream.h:1823-1850). An append() to a frozen stream throws to
    the host; the parser does not see that exception. *)
Inductive pop := PAppend (bs : bytes) | PAppendNonOwning (bs : bytes) | PGapOf (n : nat) | PFreeze.
Definition produce (ch : chain) (p : pop) : chain :=
  match p with
  | PAppend bs => fst (append_copy ch bs)
  | PAppendNonOwning bs => fst (append_nonowning ch bs)
  | PGapOf n => fst (append_gap ch n)
  | PFreeze => ch_freeze ch
  end.
Definition batch := list pop.
Definition apply_batch (ch : chain) (b : batch) : chain := fold_left produce b ch.

(** Outcome of running parser code against a schedule: it finishes (with value or exception) when only part of the
    schedule has happened, or it is still suspended after all of it. *)
Inductive outcome (A : Type) :=
| Finished (r : res A) (ch : chain) (rest : list batch)
| Suspended (ch : chain).
Arguments Finished {A} r ch rest.
Arguments Suspended {A} ch.

(** Sequencing. *)
Definition obind {A B} (x : outcome A) (f : A -> chain -> list batch -> outcome B) : outcome B :=
  match x with
  | Finished (Ok a) ch rest => f a ch rest
  | Finished (Throw e) ch rest => Finished (Throw e) ch rest
  | Finished UB ch rest => Finished UB ch rest
  | Suspended ch => Suspended ch
  end.

(** parser.cc:208-235 waitForInputOrEod(data, cur): the loop, with [old] the size at entry. *)
Fixpoint wait_loop (old : nat) (v : view) (ch : chain) (sched : list batch) {struct sched} : outcome bool :=
  match v_is_complete ch v with
  | Throw e => Finished (Throw e) ch sched
  | UB => Finished UB ch sched
  | Ok true => Finished (Ok false) ch sched
  | Ok false =>
      match sched with
      | [] => Suspended ch
      | b :: rest =>
          let ch' := apply_batch ch b in
          if v_size ch' v =? old then wait_loop old v ch' rest else Finished (Ok true) ch' rest
      end
  end.
Definition wait_change (v : view) (ch : chain) (sched : list batch) : outcome bool := wait_loop (v_size ch v) v ch sched.

(** parser.cc:194-206 waitForInputOrEod(data, cur, min); the loops of waitForInputSlow (163-178) and waitForInputNoThrow
    (180-192) are the same. [min = None] stands for the maximum of uint64_t, which no view reaches. The recursion is
    bounded by the number of resumptions left. *)
Definition reached (min : option nat) (size : nat) : bool := match min with Some n => n <=? size | None => false end.
Fixpoint wait_min_loop (fuel : nat) (min : option nat) (v : view) (ch : chain) (sched : list batch) : outcome bool :=
  if reached min (v_size ch v) then Finished (Ok true) ch sched else
  match fuel with
  | 0 => Finished UB ch sched
  | S f => obind (wait_change v ch sched) (fun ok ch sched =>
             if ok : bool then wait_min_loop f min v ch sched else Finished (Ok false) ch sched)
  end.
Definition wait_or_eod (min : nat) (v : view) (ch : chain) (sched : list batch) : outcome bool :=
  wait_min_loop (S (length sched)) (Some min) v ch sched.

(** parser.h:572-581 waitForInput(min, msg) with parser.cc:163-178 *)
Definition wait_for_input (min : nat) (v : view) (ch : chain) (sched : list batch) : outcome unit :=
  if min <=? v_size ch v then Finished (Ok tt) ch sched else
  obind (wait_or_eod min v ch sched) (fun ok ch sched => Finished (if ok : bool then Ok tt else Throw ParseError) ch sched).

(** parser.cc:152-161 waitForEod. For an end before the current position the subtraction wraps; a huge count. *)
Definition wait_for_eod (v : view) (ch : chain) (sched : list batch) : outcome bool :=
  let min := match v_end_off v with
             | None => None
             | Some e => if e <? v_off v then None else Some (e - v_off v)
             end in
  wait_min_loop (S (length sched)) min v ch sched.

(** parser.h:644-650 atEod, parser.cc:251-262 atEodSlow *)
Definition at_eod (v : view) (ch : chain) (sched : list batch) : outcome bool :=
  if 0 <? v_size ch v then Finished (Ok false) ch sched else
  match v_is_complete ch v with
  | Throw e => Finished (Throw e) ch sched
  | UB => Finished UB ch sched
  | Ok true => Finished (Ok true) ch sched
  | Ok false => obind (wait_change v ch sched) (fun ok ch sched => Finished (Ok (negb ok)) ch sched)
  end.

(** stream.h:1659-1663 View::data with bytes.cc:345-349 *)
Definition v_data (ch : chain) (v : view) : res bytes := let* bl := v_blocks ch v in Ok (flat_map bk_data bl).
(** stream.h:1425-1428 sub(iterator); [cur.sub(cur.begin() + n).data()] *)
Definition sub_data (ch : chain) (v : view) (n : nat) : res bytes :=
  let* e := it_incr ch (v_begin v) n in let* s := v_sub_iter ch (v_begin v) e in v_data ch s.

Definition lift {A} (r : res A) (ch : chain) (sched : list batch) : outcome A := Finished r ch sched.

(** parser.cc:281-295 extractBytes *)
Definition extract_bytes (size : nat) (eod_ok : bool) (v : view) (ch : chain) (sched : list batch) : outcome bytes :=
  obind (wait_or_eod size v ch sched) (fun ok ch sched =>
    if eod_ok || ok then lift (sub_data ch v size) ch sched else Finished (Throw ParseError) ch sched).

(** parser.cc:297-319 expectBytesLiteral *)
Definition expect_literal (lit : bytes) (v : view) (ch : chain) (sched : list batch) : outcome unit :=
  obind (wait_or_eod (length lit) v ch sched) (fun ok ch sched =>
    if ok : bool then
      lift (let* m := v_starts_with ch v lit in
            if m : bool then Ok tt
            else let* _ := sub_data ch v (length lit) in Throw ParseError) ch sched
    else Finished (Throw ParseError) ch sched).

(** parser-builder.cc:3013-3020 advanceInput and 2783-2793 trimInput: move the view's beginning; if trimming is on, drop
    everything before it from the stream. *)
Definition advance_input (trim : bool) (n : nat) (v : view) (ch : chain) (sched : list batch) : outcome view :=
  match v_advance ch v n with
  | Ok v' => if trim then let r := ch_trim_iter ch (v_begin v') in
                          Finished (rmap (fun _ => v') (snd r)) (fst r) sched
             else Finished (Ok v') ch sched
  | Throw e => Finished (Throw e) ch sched
  | UB => Finished UB ch sched
  end.

(** types.cc:452-468: bytes &size=N [&eod] (optimized mode) *)
Definition parse_bytes_size (trim : bool) (n : nat) (eod_ok : bool) (v : view) (ch : chain) (sched : list batch) : outcome (bytes * view) :=
  obind (extract_bytes n eod_ok v ch sched) (fun bs ch sched =>
  obind (advance_input trim n v ch sched) (fun v ch sched => Finished (Ok (bs, v)) ch sched)).

(** literals.cc:112-125: a bytes literal (no look-ahead pending) *)
Definition parse_literal (trim : bool) (lit : bytes) (v : view) (ch : chain) (sched : list batch) : outcome (bytes * view) :=
  obind (expect_literal lit v ch sched) (fun _ ch sched =>
  obind (advance_input trim (length lit) v ch sched) (fun v ch sched => Finished (Ok (lit, v)) ch sched)).

(** types.cc:356-360: bytes &eod, or &size with the view already limited *)
Definition parse_bytes_eod (trim : bool) (v : view) (ch : chain) (sched : list batch) : outcome (bytes * view) :=
  obind (wait_for_eod v ch sched) (fun _ ch sched =>
  obind (lift (v_data ch v) ch sched) (fun bs ch sched =>
  obind (advance_input trim (v_size ch v) v ch sched) (fun v ch sched => Finished (Ok (bs, v)) ch sched))).

(** types.cc:333-352: bytes &eod &chunked. The values passed to the field's hook, in order. *)
Fixpoint chunked_loop (fuel : nat) (trim : bool) (acc : list bytes) (v : view) (ch : chain) (sched : list batch) : outcome (list bytes * view) :=
  match fuel with
  | 0 => Finished UB ch sched
  | S f =>
      obind (wait_or_eod 1 v ch sched) (fun more ch sched =>
      obind (if 0 <? v_size ch v then
               obind (lift (v_data ch v) ch sched) (fun bs ch sched =>
               obind (advance_input trim (v_size ch v) v ch sched) (fun v ch sched => Finished (Ok (acc ++ [bs], v)) ch sched))
             else Finished (Ok (acc, v)) ch sched) (fun r ch sched =>
      let (acc, v) := r : list bytes * view in
      if more : bool then chunked_loop f trim acc v ch sched else Finished (Ok (acc, v)) ch sched))
  end.
Definition parse_bytes_chunked (trim : bool) (v : view) (ch : chain) (sched : list batch) : outcome (list bytes * view) :=
  chunked_loop (S (S (length sched))) trim [] v ch sched.

(** types.cc:372-437: bytes &until=X / &until-including=X. [acc] lists the pieces added so far: they are concatenated
    (addSumAssign) or, with &chunked, handed to the hook one by one. The position found is handed on as the iterator
    [begin + distance]. *)
Fixpoint until_loop (fuel : nat) (trim including : bool) (x : bytes) (acc : list bytes) (v : view) (ch : chain) (sched : list batch)
  : outcome (list bytes * view) :=
  match fuel with
  | 0 => Finished UB ch sched
  | S f =>
      obind (wait_for_input (length x) v ch sched) (fun _ ch sched =>
      obind (lift (v_find ch v x None) ch sched) (fun fnd ch sched =>
      let found := fst fnd in
      let dist := snd fnd - v_off v in
      obind (lift (it_incr ch (v_begin v) dist) ch sched) (fun it ch sched =>
      obind (lift (v_sub_iter ch (v_begin v) it) ch sched) (fun m ch sched =>
      obind (if v_size ch m =? 0 then Finished (Ok acc) ch sched
             else obind (lift (v_data ch m) ch sched) (fun bs ch sched => Finished (Ok (acc ++ [bs])) ch sched)) (fun acc ch sched =>
      if found : bool then
        obind (if including then
                 obind (lift (let* ni := it_incr ch it (length x) in let* s := v_sub_iter ch it ni in v_data ch s) ch sched)
                   (fun bs ch sched => Finished (Ok (acc ++ [bs])) ch sched)
               else Finished (Ok acc) ch sched) (fun acc ch sched =>
        obind (advance_input trim (dist + length x) v ch sched) (fun v ch sched => Finished (Ok (acc, v)) ch sched))
      else
        obind (advance_input trim dist v ch sched) (fun v ch sched => until_loop f trim including x acc v ch sched))))))
  end.
Definition parse_bytes_until (trim including : bool) (x : bytes) (v : view) (ch : chain) (sched : list batch) : outcome (list bytes * view) :=
  until_loop (S (S (length sched))) trim including x [] v ch sched.

(** parser-builder.cc:2967-2979 skip(size) *)
Fixpoint skip_loop (fuel : nat) (trim : bool) (n : nat) (v : view) (ch : chain) (sched : list batch) : outcome view :=
  if n =? 0 then Finished (Ok v) ch sched else
  match fuel with
  | 0 => Finished UB ch sched
  | S f =>
      obind (wait_for_input 1 v ch sched) (fun _ ch sched =>
      let consume := Nat.min (v_size ch v) n in
      obind (advance_input trim consume v ch sched) (fun v ch sched => skip_loop f trim (n - consume) v ch sched))
  end.
Definition skip_bytes (trim : bool) (n : nat) (v : view) (ch : chain) (sched : list batch) : outcome view :=
  skip_loop (S (S (length sched))) trim n v ch sched.

(** parser-builder.cc:2047-2052 skip : bytes &eod *)
Fixpoint skip_eod_loop (fuel : nat) (trim : bool) (v : view) (ch : chain) (sched : list batch) : outcome view :=
  match fuel with
  | 0 => Finished UB ch sched
  | S f =>
      obind (wait_change v ch sched) (fun more ch sched =>
      obind (advance_input trim (v_size ch v) v ch sched) (fun v ch sched =>
      if more : bool then skip_eod_loop f trim v ch sched else Finished (Ok v) ch sched))
  end.
Definition skip_eod (trim : bool) (v : view) (ch : chain) (sched : list batch) : outcome view :=
  skip_eod_loop (S (S (length sched))) trim v ch sched.

(** types.cc:55-71 performUnpack (not in try mode): integers, reals, addresses. The value is the [n] raw bytes taken with
    View::extract; turning them into a number is a function of these bytes (IntModel, AddrModel). The view moves without
    trimming. The unpack functions' own length check never fails after the wait. *)
Definition parse_raw (n : nat) (v : view) (ch : chain) (sched : list batch) : outcome (bytes * view) :=
  obind (wait_for_input n v ch sched) (fun _ ch sched => lift (v_extract ch v n) ch sched).

(** A parser is a sequence of fields in which later fields may depend on the values of earlier ones and on end-of-data
    tests (generated code: conditionals, switches, while-not-at-eod loops), and of groups of fields with &size or &max-size. *)
Inductive field :=
| FRaw (n : nat)                       (* uint8..64, int8..64, real, addr: n bytes *)
| FSize (n : nat) (eod_ok : bool)      (* bytes &size=n [&eod] *)
| FLiteral (lit : bytes)               (* b"lit" *)
| FUntil (including : bool) (x : bytes) (* bytes &until=x, &until-including=x *)
| FEod                                 (* bytes &eod *)
| FEodChunked                          (* bytes &eod &chunked *)
| FSkip (n : nat)                      (* skip : bytes &size=n *)
| FSkipEod.                            (* skip : bytes &eod *)
Inductive prog :=
| PDone
| PField (f : field) (k : bytes -> prog)
| PAtEod (k : bool -> prog)
| PSized (n : nat) (body : prog) (k : list bytes -> prog)     (* field, unit or block with &size=n *)
| PMaxSized (n : nat) (body : prog) (k : list bytes -> prog). (* field or unit with &max-size=n *)

(** The value a field leaves behind; for chunked parsing the concatenation of what the hook saw. *)
Definition parse_field (trim : bool) (f : field) (v : view) (ch : chain) (sched : list batch) : outcome (bytes * view) :=
  match f with
  | FRaw n => parse_raw n v ch sched
  | FSize n eod_ok => parse_bytes_size trim n eod_ok v ch sched
  | FLiteral lit => parse_literal trim lit v ch sched
  | FUntil including x => obind (parse_bytes_until trim including x v ch sched) (fun r ch sched => Finished (Ok (concat (fst r), snd r)) ch sched)
  | FEod => parse_bytes_eod trim v ch sched
  | FEodChunked => obind (parse_bytes_chunked trim v ch sched) (fun r ch sched => Finished (Ok (concat (fst r), snd r)) ch sched)
  | FSkip n => obind (skip_bytes trim n v ch sched) (fun v ch sched => Finished (Ok ([], v)) ch sched)
  | FSkipEod => obind (skip_eod trim v ch sched) (fun v ch sched => Finished (Ok ([], v)) ch sched)
  end.

(** parser-builder.cc:881-913, 1596-1622, 1800-1822: the view for the body (limited to [len]) and the position to continue
    at (behind [len] bytes). Offsets are integer::safe<uint64_t>: the position to continue at overflows if it does not fit. *)
Definition enter_limited (len : nat) (v : view) (ch : chain) : res (view * view) :=
  if (2 ^ 64 <=? Z.of_nat (v_off v) + Z.of_nat len)%Z then Throw Overflow else
  let* lv := v_limit ch v len in let* nv := v_advance ch v len in Ok (lv, nv).

(** Running a parser: the values of the fields parsed so far, and the outcome. For &size the check _checkSizeAmount
    (parser-builder.cc:201-223) and the continuation at [ncur] (1626-1631, 1931-1939, 939-950, 1022-1023); for &max-size the
    sentinel byte and check (890-896, 926-941, 1805-1810, 1917-1929) and advanceLimited (959-966).
    Not modelled: &eod with &size on anything else than a bytes field. *)
Fixpoint exec_prog (trim : bool) (p : prog) (v : view) (ch : chain) (sched : list batch) : list bytes * outcome view :=
  match p with
  | PDone => ([], Finished (Ok v) ch sched)
  | PField f k =>
      match parse_field trim f v ch sched with
      | Finished (Ok (bs, v')) ch' rest => let r := exec_prog trim (k bs) v' ch' rest in (bs :: fst r, snd r)
      | Finished (Throw e) ch' rest => ([], Finished (Throw e) ch' rest)
      | Finished UB ch' rest => ([], Finished UB ch' rest)
      | Suspended ch' => ([], Suspended ch')
      end
  | PAtEod k =>
      match at_eod v ch sched with
      | Finished (Ok b) ch' rest => exec_prog trim (k b) v ch' rest
      | Finished (Throw e) ch' rest => ([], Finished (Throw e) ch' rest)
      | Finished UB ch' rest => ([], Finished UB ch' rest)
      | Suspended ch' => ([], Suspended ch')
      end
  | PSized n body k =>
      match enter_limited n v ch with
      | Throw e => ([], Finished (Throw e) ch sched)
      | UB => ([], Finished UB ch sched)
      | Ok (lv, nv) =>
          let r := exec_prog trim body lv ch sched in
          match snd r with
          | Finished (Ok cur) ch' rest =>
              if v_off cur <? v_off nv then (fst r, Finished (Throw ParseError) ch' rest)
              else let r2 := exec_prog trim (k (fst r)) nv ch' rest in (fst r ++ fst r2, snd r2)
          | o => (fst r, o)
          end
      end
  | PMaxSized n body k =>
      match enter_limited (n + 1) v ch with
      | Throw e => ([], Finished (Throw e) ch sched)
      | UB => ([], Finished UB ch sched)
      | Ok (lv, nv) =>
          let r := exec_prog trim body lv ch sched in
          match snd r with
          | Finished (Ok cur) ch' rest =>
              if v_off nv <=? v_off cur then (fst r, Finished (Throw ParseError) ch' rest)
              else match v_advance ch' v (v_off cur - v_off v) with
                   | Ok v' => let r2 := exec_prog trim (k (fst r)) v' ch' rest in (fst r ++ fst r2, snd r2)
                   | Throw e => (fst r, Finished (Throw e) ch' rest)
                   | UB => (fst r, Finished UB ch' rest)
                   end
          | o => (fst r, o)
          end
      end
  end.

(** What an observer sees: the values of the fields parsed so far, and how the parser stands. *)
Inductive status := Success (off : nat) | Failed (e : exn) | Undefined | Waiting.
Definition status_of (o : outcome view) : status :=
  match o with
  | Finished (Ok v) _ _ => Success (v_off v)
  | Finished (Throw e) _ _ => Failed e
  | Finished UB _ _ => Undefined
  | Suspended _ => Waiting
  end.
Definition run_prog (trim : bool) (p : prog) (v : view) (ch : chain) (sched : list batch) : list bytes * status :=
  let r := exec_prog trim p v ch sched in (fst r, status_of (snd r)).
