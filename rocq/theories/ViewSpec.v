(** Specification for C07-C13. A view is a range of absolute offsets of the queue of StreamSpec.v; its content is the list
    of cells in that range that are currently there. *)
From Verif Require Import Base StreamModel StreamSpec ViewModel.

(** Cells of the queue with offsets in [lo, hi) ([hi = None]: up to the current end). *)
Definition window (q : queue) (lo : nat) (hi : option nat) : list cell :=
  let stop := match hi with None => q_end q | Some h => Nat.min h (q_end q) end in
  firstn (stop - lo) (skipn (lo - q_begin q) (q_cells q)).

(** Iterator [i] is one the client has obtained by running the program that led to [s]/[q]; [o] is its offset. Excluded are
    end() iterators of a stream that has been trimmed to exactly their position (see C02_end_iterator_refuted). *)
Definition holds (s : client) (q : queue) (i : iter) (o : nat) : Prop :=
  exists k h, nth_error (cl_its s) k = Some i /\ nth_error (q_hs q) k = Some h /\ h_off h = o /\ h_fresh q h = true.

(** [v] is a view over the live stream that results from running the client program [os]; it starts at offset [lo] and ends
    at [hi]. *)
Record view_at (os : list op) (ch : chain) (q : queue) (v : view) (lo : nat) (hi : option nat) : Prop := {
  va_contract : contract queue_new os = true;
  va_chain : ch = cl_chain (fst (run client_new os));
  va_queue : q = fst (spec_run queue_new os);
  va_alive : q_dead q = false;
  va_begin : holds (fst (run client_new os)) q (v_begin v) lo;
  va_end : match v_end v, hi with
           | None, None => True
           | Some e, Some h => holds (fst (run client_new os)) q e h
           | _, _ => False
           end }.

(** The end does not lie before the beginning. *)
Definition ordered (lo : nat) (hi : option nat) : Prop := match hi with None => True | Some h => lo <= h end.

(** [n] is an optional start iterator the client holds, located at [st]. *)
Definition start_ok (os : list op) (q : queue) (n : option iter) (lo : nat) (hi : option nat) (st : nat) : Prop :=
  match n with
  | None => st = lo
  | Some i => holds (fst (run client_new os)) q i st /\ lo <= st /\ ordered st hi
  end.

Definition no_gap (w : list cell) (bs : bytes) : Prop := w = map CByte bs.

(** [needle] occurs at index [k] of [bs]. *)
Definition occurs (needle bs : bytes) (k : nat) : Prop := exists a c, bs = a ++ needle ++ c /\ length a = k.
(** All of [bs] from index [k] on is a proper prefix of [needle] (an occurrence may still be completed by future data). *)
Definition partial_at (needle bs : bytes) (k : nat) : Prop :=
  exists a m c, bs = a ++ m /\ length a = k /\ needle = m ++ c /\ c <> [].
Definition prefix (a b : bytes) : Prop := exists c, b = a ++ c.

(** Search on cells: the first position (counted from [k]) at which the needle occurs or could still be completed;
    running into a gap is an error. *)
Fixpoint cmp_cells (w : list cell) (needle : bytes) : res mres :=
  match needle with
  | [] => Ok MFull
  | c :: y =>
      match w with
      | [] => Ok MEnd
      | CGap :: _ => Throw MissingData
      | CByte b :: w' => if Z.eqb b c then cmp_cells w' y else Ok MNo
      end
  end.
Fixpoint search_cells (w : list cell) (needle : bytes) (k : nat) : res (bool * nat) :=
  let* m := cmp_cells w needle in
  match m with
  | MFull => Ok (true, k)
  | MEnd => Ok (false, k)
  | MNo => match w with [] => Ok (false, k) | _ :: w' => search_cells w' needle (S k) end
  end.

(** Offset of the first cell that is the byte [b], counted from [k]; [e] if there is none. *)
Fixpoint byte_cells (w : list cell) (b : byte) (k e : nat) : res nat :=
  match w with
  | [] => Ok e
  | CGap :: _ => Throw MissingData
  | CByte x :: w' => if Z.eqb x b then Ok k else byte_cells w' b (S k) e
  end.

(** Comparison with a byte string on cells. *)
Fixpoint eq_cells (w : list cell) (bs : bytes) : res bool :=
  match w, bs with
  | [], [] => Ok true
  | [], _ => Ok false
  | _, [] => Ok false
  | CGap :: _, _ => Throw MissingData
  | CByte b :: w', c :: bs' => if Z.eqb b c then eq_cells w' bs' else Ok false
  end.
Fixpoint starts_cells (w : list cell) (bs : bytes) : res bool :=
  match bs, w with
  | [], _ => Ok true
  | _, [] => Ok false
  | _, CGap :: _ => Throw MissingData
  | c :: bs', CByte b :: w' => if Z.eqb b c then starts_cells w' bs' else Ok false
  end.

(** The first [n] cells as bytes. *)
Fixpoint take_cells (w : list cell) (n : nat) {struct n} : res bytes :=
  match n with
  | 0 => Ok []
  | S n' => match w with
            | [] => UB
            | CGap :: _ => Throw MissingData
            | CByte b :: w' => let* r := take_cells w' n' in Ok (b :: r)
            end
  end.

(** The offset of the first cell from [o] on that is data; the end offset if there is none. *)
Fixpoint next_data_in (w : list cell) (o : nat) : nat :=
  match w with
  | CGap :: w' => next_data_in w' (S o)
  | _ => o
  end.

(** A list of blocks covers offsets from [o] on contiguously; first/last flags are right. *)
Fixpoint well_numbered (o : nat) (first : bool) (bl : list block) : Prop :=
  match bl with
  | [] => True
  | b :: r => bk_off b = o /\ bk_first b = first /\ bk_data b <> [] /\
              bk_last b = (match r with [] => true | _ => false end) /\
              well_numbered (o + length (bk_data b)) false r
  end.
