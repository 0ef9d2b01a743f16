(** Specification for C01-C05, independent of chunks, pointers and caches: a stream is a queue of cells addressed by
    absolute offsets, an iterator is an offset. *)
From Verif Require Import Base StreamModel.

Inductive cell := CByte (b : byte) | CGap.

(** A handle is an offset; the flag records that it was produced by end() on a non-empty stream (or by moving such a
    handle by 0). *)
Record handle := mkHandle { h_off : nat; h_end : bool }.

Record queue := mkQueue {
  q_begin : nat;          (* offset of the first available cell *)
  q_cells : list cell;    (* available cells *)
  q_frozen : bool;
  q_dead : bool;          (* the stream object is gone *)
  q_stats : stats;
  q_hs : list handle
}.

Definition queue_new : queue := mkQueue 0 [] false false stats0 [].
Definition q_end (q : queue) : nat := q_begin q + length (q_cells q).
Definition q_get (q : queue) (o : nat) : option cell :=
  if o <? q_begin q then None else nth_error (q_cells q) (o - q_begin q).

Definition set_content (q : queue) (b : nat) (cs : list cell) (st : stats) : queue :=
  mkQueue b cs (q_frozen q) (q_dead q) st (q_hs q).
Definition set_frozen (q : queue) (f : bool) : queue :=
  mkQueue (q_begin q) (q_cells q) f (q_dead q) (q_stats q) (q_hs q).
Definition add_handle (q : queue) (h : handle) : queue :=
  mkQueue (q_begin q) (q_cells q) (q_frozen q) (q_dead q) (q_stats q) (q_hs q ++ [h]).

Definition q_append (q : queue) (cs : list cell) (st : stats) : queue * res value :=
  match cs with
  | [] => (q, Ok VUnit)
  | _ => if q_dead q then (q, Throw InvalidIterator)
         else if q_frozen q then (q, Throw Frozen)
         else (set_content q (q_begin q) (q_cells q ++ cs) st, Ok VUnit)
  end.

Definition stats_data (s : stats) (n : nat) : stats :=
  mkStats (num_data_bytes s + n) (S (num_data_chunks s)) (num_gap_bytes s) (num_gap_chunks s).
Definition stats_gap (s : stats) (n : nat) : stats :=
  mkStats (num_data_bytes s) (num_data_chunks s) (num_gap_bytes s + n) (S (num_gap_chunks s)).

Definition q_read (q : queue) (o : nat) : res byte :=
  if q_dead q then Throw InvalidIterator else
  match q_get q o with
  | None => Throw InvalidIterator
  | Some CGap => Throw MissingData
  | Some (CByte b) => Ok b
  end.

Definition q_on (q : queue) (k : nat) (f : handle -> queue * res value) : queue * res value :=
  match nth_error (q_hs q) k with Some h => f h | None => (q, Ok VUnit) end.
Definition q_new_handle (q : queue) (h : handle) : queue * res value :=
  if q_dead q then (q, Throw InvalidIterator) else (add_handle q h, Ok VUnit).

Definition spec_step (q : queue) (o : op) : queue * res value :=
  match o with
  | OAppend bs | OAppendNonOwning bs => q_append q (map CByte bs) (stats_data (q_stats q) (length bs))
  | OGap n => q_append q (repeat CGap n) (stats_gap (q_stats q) n)
  | OTrim k =>
      q_on q k (fun h =>
        if q_dead q then (q, Throw InvalidIterator) else
        match q_cells q with
        | [] => (q, Ok VUnit)
        | _ => (set_content q (h_off h) (skipn (h_off h - q_begin q) (q_cells q)) (q_stats q), Ok VUnit)
        end)
  | OFreeze => (if q_dead q then q else set_frozen q true, Ok VUnit)
  | OUnfreeze => (if q_dead q then q else set_frozen q false, Ok VUnit)
  | ODestroy => (mkQueue 0 [] false true stats0 (q_hs q), Ok VUnit)
  | OReset => (mkQueue 0 [] false false stats0 (q_hs q), Ok VUnit)
  | OBegin => q_new_handle q (mkHandle (q_begin q) false)
  | OEnd => q_new_handle q (mkHandle (q_end q) (match q_cells q with [] => false | _ => true end))
  | OAt n => q_new_handle q (mkHandle n false)
  | OIncr k n => q_on q k (fun h =>
      (add_handle q (mkHandle (h_off h + n) (h_end h && (n =? 0))), Ok VUnit))
  | ODecr k n => q_on q k (fun h =>
      if h_off h <? n then (q, Throw InvalidIterator)
      else (add_handle q (mkHandle (h_off h - n) (h_end h && (n =? 0))), Ok VUnit))
  | ODeref k => q_on q k (fun h => (q, rmap VByte (q_read q (h_off h))))
  | OIsEnd k => q_on q k (fun h =>
      (q, if q_dead q then Throw InvalidIterator else Ok (VBool (q_end q <=? h_off h))))
  | OOffset k => q_on q k (fun h => (q, Ok (VNat (h_off h))))
  | OSize => (q, Ok (VNat (length (q_cells q))))
  | OEndOffset => (q, Ok (VNat (q_end q)))
  | OIsFrozen => (q, Ok (VBool (q_frozen q)))
  | OStats => (q, Ok (VStats (q_stats q)))
  end.

Fixpoint spec_run (q : queue) (os : list op) : queue * list (res value) :=
  match os with
  | [] => (q, [])
  | o :: os' =>
      let (q1, r) := spec_step q o in
      let (q2, rs) := spec_run q1 os' in
      (q2, r :: rs)
  end.

(** What a client must not do for the queue semantics to be guaranteed:
    - reset() a stream that still has iterators,
    - trim to a position before the current start of a non-empty stream,
    - move or dereference an iterator obtained from end() of a non-empty stream once the stream has been trimmed to exactly
      that position.
    Each exclusion is necessary: see the [_refuted] theorems. *)
Definition h_fresh (q : queue) (h : handle) : bool :=
  q_dead q || negb (h_end h && (h_off h =? q_begin q)).

Definition allowed (q : queue) (o : op) : bool :=
  match o with
  | OReset => match q_hs q with [] => negb (q_dead q) | _ => false end
  | OTrim k =>
      match nth_error (q_hs q) k with
      | None => true
      | Some h => q_dead q || (match q_cells q with [] => true | _ => false end) || (q_begin q <=? h_off h)
      end
  | OIncr k n | ODecr k n =>
      match nth_error (q_hs q) k with None => true | Some h => (n =? 0) || h_fresh q h end
  | ODeref k =>
      match nth_error (q_hs q) k with None => true | Some h => h_fresh q h end
  | _ => true
  end.

Fixpoint contract (q : queue) (os : list op) : bool :=
  match os with
  | [] => true
  | o :: os' => allowed q o && contract (fst (spec_step q o)) os'
  end.
