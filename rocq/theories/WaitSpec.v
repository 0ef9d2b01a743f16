(** Specification for C21, C22, C59: independent of views, chunks and loops. [D] is everything that is ever available to the
    parser from its current position on (up to the end of its view), [closed] says that no more can come. *)
From Verif Require Import Base StreamModel StreamSpec ViewModel ViewSpec WaitModel.

Definition to_op (p : pop) : op :=
  match p with
  | PAppend bs => OAppend bs
  | PAppendNonOwning bs => OAppendNonOwning bs
  | PGapOf n => OGap n
  | PFreeze => OFreeze
  end.

(** The stream's queue after the first [k] batches of the schedule. *)
Definition host_ops (sched : list batch) : list op := map to_op (concat sched).
Definition after (q : queue) (sched : list batch) (k : nat) : queue := fst (spec_run q (host_ops (firstn k sched))).
Definition at_end (q : queue) (sched : list batch) : queue := fst (spec_run q (host_ops sched)).

(** No more data can become available between [lo] and [hi]. *)
Definition over (q : queue) (hi : option nat) : bool := q_frozen q || match hi with Some h => h <=? q_end q | None => false end.

(** Until batch [k] neither [n] bytes are available nor can it be excluded that more will come; at [k] one is the case. *)
Definition decided_at (q : queue) (sched : list batch) (lo : nat) (hi : option nat) (n k : nat) : Prop :=
  k <= length sched /\
  (forall j, j < k -> length (window (after q sched j) lo hi) < n /\ over (after q sched j) hi = false) /\
  (n <= length (window (after q sched k) lo hi) \/ over (after q sched k) hi = true).
Definition undecided (q : queue) (sched : list batch) (lo : nat) (hi : option nat) (n : nat) : Prop :=
  forall j, j <= length sched -> length (window (after q sched j) lo hi) < n /\ over (after q sched j) hi = false.

(** Meaning of fields. *)
Inductive fres := FOk (value : bytes) (consumed : nat) | FFail (e : exn) | FWait.

Definition need (n : nat) (D : list cell) (closed : bool) (ok : fres) : fres :=
  if n <=? length D then ok else if closed then FFail ParseError else FWait.

(** The cells as bytes, unless there is a gap. *)
Fixpoint as_bytes (w : list cell) : option bytes :=
  match w with
  | [] => Some []
  | CGap :: _ => None
  | CByte b :: w' => option_map (cons b) (as_bytes w')
  end.
Definition value_of (w : list cell) (consumed : nat) : fres :=
  match as_bytes w with Some bs => FOk bs consumed | None => FFail MissingData end.

Fixpoint prefixb (x bs : bytes) : bool :=
  match x, bs with
  | [], _ => true
  | _, [] => false
  | a :: x', b :: bs' => Z.eqb a b && prefixb x' bs'
  end.
(** Position of the first occurrence of [x]. *)
Fixpoint first_occ (x bs : bytes) : option nat :=
  if prefixb x bs then Some 0 else match bs with [] => None | _ :: r => option_map S (first_occ x r) end.

Definition spec_field (f : field) (D : list cell) (closed : bool) : fres :=
  match f with
  | FRaw n => need n D closed (value_of (firstn n D) n)
  | FSize n false => need n D closed (value_of (firstn n D) n)
  | FSize n true => if (n <=? length D) || closed then value_of (firstn n D) n else FWait
  | FLiteral lit =>
      need (length lit) D closed
        match starts_cells D lit with
        | Ok true => FOk lit (length lit)
        | _ => match as_bytes (firstn (length lit) D) with Some _ => FFail ParseError | None => FFail MissingData end
        end
  | FUntil including x =>
      match as_bytes D with
      | None => FFail MissingData
      | Some bs =>
          match first_occ x bs with
          | Some k => FOk (firstn (if including then k + length x else k) bs) (k + length x)
          | None => if closed then FFail ParseError else FWait
          end
      end
  | FEod => if closed then value_of D (length D) else FWait
  | FEodChunked => match as_bytes D with
                   | None => FFail MissingData
                   | Some bs => if closed then FOk bs (length D) else FWait
                   end
  | FSkip n => need n D closed (FOk [] n)
  | FSkipEod => if closed then FOk [] (length D) else FWait
  end.

(** Meaning of a parser: a function of the input alone. A body with &size=n sees the next [n] bytes as all its input and
    must use all of them; with &max-size=n it sees one byte more but must not use it. Positions are 64-bit numbers. *)
Fixpoint spec_prog (p : prog) (lo : nat) (D : list cell) (closed : bool) : list bytes * status :=
  match p with
  | PDone => ([], Success lo)
  | PField f k =>
      match spec_field f D closed with
      | FOk bs n => let r := spec_prog (k bs) (lo + n) (skipn n D) closed in (bs :: fst r, snd r)
      | FFail e => ([], Failed e)
      | FWait => ([], Waiting)
      end
  | PAtEod k =>
      match D with
      | _ :: _ => spec_prog (k false) lo D closed
      | [] => if closed then spec_prog (k true) lo D closed else ([], Waiting)
      end
  | PSized n body k =>
      if (2 ^ 64 <=? Z.of_nat lo + Z.of_nat n)%Z then ([], Failed Overflow) else
      let r := spec_prog body lo (firstn n D) (closed || (n <=? length D)) in
      match snd r with
      | Success o => if o <? lo + n then (fst r, Failed ParseError)
                     else let r2 := spec_prog (k (fst r)) (lo + n) (skipn n D) closed in (fst r ++ fst r2, snd r2)
      | s => (fst r, s)
      end
  | PMaxSized n body k =>
      if (2 ^ 64 <=? Z.of_nat lo + Z.of_nat (n + 1))%Z then ([], Failed Overflow) else
      let r := spec_prog body lo (firstn (n + 1) D) (closed || (n + 1 <=? length D)) in
      match snd r with
      | Success o => if lo + n <? o then (fst r, Failed ParseError)
                     else let r2 := spec_prog (k (fst r)) o (skipn (o - lo) D) closed in (fst r ++ fst r2, snd r2)
      | s => (fst r, s)
      end
  end.

(** Two restrictions: &until needs input without gaps, and &size with &eod a view that is not limited. *)
Definition field_ok (gapless limited : bool) (f : field) : Prop :=
  match f with
  | FUntil _ _ => gapless = true
  | FSize _ true => limited = false
  | _ => True
  end.
Fixpoint prog_ok (gapless limited : bool) (p : prog) : Prop :=
  match p with
  | PDone => True
  | PField f k => field_ok gapless limited f /\ forall bs, prog_ok gapless limited (k bs)
  | PAtEod k => forall b, prog_ok gapless limited (k b)
  | PSized _ body k | PMaxSized _ body k => prog_ok gapless true body /\ forall vs, prog_ok gapless limited (k vs)
  end.

(** The view is one the client obtained from begin(), at(offset) or by moving such iterators, and starts inside the stream. *)
Definition plain (os : list op) (i : iter) (o : nat) : Prop :=
  exists k h, nth_error (cl_its (fst (run client_new os))) k = Some i /\
    nth_error (q_hs (fst (spec_run queue_new os))) k = Some h /\ h_off h = o /\ h_end h = false.
Record parsing_view (os : list op) (ch : chain) (q : queue) (v : view) (lo : nat) (hi : option nat) : Prop := {
  pv_contract : contract queue_new os = true;
  pv_chain : ch = cl_chain (fst (run client_new os));
  pv_queue : q = fst (spec_run queue_new os);
  pv_alive : q_dead q = false;
  pv_begin : plain os (v_begin v) lo;
  pv_end : match v_end v, hi with
           | None, None => True
           | Some e, Some h => plain os e h
           | _, _ => False
           end;
  pv_inside : q_begin q <= lo;
  pv_before_end : lo <= q_end q \/ q_frozen q = true;
  pv_ordered : ordered lo hi;
  pv_small : match hi with Some h => (Z.of_nat h < 2 ^ 64)%Z | None => True end }.
