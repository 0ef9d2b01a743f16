(** Specification of reassembly, independent of how the sink does it.

    The sequence space is the set of integers (position 0 is the first byte of the input).  What has been provided so far
    is a partial map from positions to cells; the first provider of a position wins.  The reader is at a position; it
    is given all bytes from there on up to the first position nothing has been provided for, or up to a reported gap. *)
From Verif Require Import Base BytesModel SinkModel.
Open Scope Z_scope.

(** A position is known by its byte or known to be missing; in the latter case the gap extends up to [upto]. *)
Inductive cell := Byte (b : byte) | Missing (upto : Z).
Definition seqmap := Z -> option cell.
Definition nothing : seqmap := fun _ => None.
Definition data_cells (start : Z) (d : bytes) : seqmap :=
  fun p => if (start <=? p) && (p <? start + blen d) then option_map Byte (nth_error d (Z.to_nat (p - start))) else None.
Definition gap_cells (start len : Z) : seqmap :=
  fun p => if (start <=? p) && (p <? start + len) then Some (Missing (start + len)) else None.
Definition first_wins (m n : seqmap) : seqmap := fun p => match m p with Some c => Some c | None => n p end.

(** What the reader observes: a byte of a position, or that positions [p .. p+len-1] are missing. *)
Inductive obs := OByte (p : Z) (b : byte) | OMissing (p len : Z).

(** From position [p] the reader observes [os] and then waits at [q]; [g] tells whether it waits behind a gap. *)
Inductive advance (m : seqmap) : Z -> list obs -> Z -> bool -> Prop :=
| adv_wait p : m p = None -> advance m p [] p false
| adv_gap p e : m p = Some (Missing e) -> advance m p [OMissing p (e - p)] e true
| adv_byte p b os q g : m p = Some (Byte b) -> advance m (p + 1) os q g -> advance m p (OByte p b :: os) q g.

(** What is known, the extents of what has been provided, the reader's position, whether it waits behind a gap. *)
Record rstate := mkR { r_map : seqmap; r_ext : list (Z * Z); r_pos : Z; r_gap : bool }.
Definition rinit : rstate := mkR nothing [] 0 false.

(** Client operations, positions relative to the initial sequence number. *)
Inductive rop := RWrite (start : Z) (d : bytes) | RGap (start len : Z) | RSkip (to : Z) | RTrim (to : Z).
Definition provide (r : rstate) (o : rop) : seqmap * list (Z * Z) :=
  match o with
  | RWrite a d => (first_wins (r_map r) (data_cells a d), (a, a + blen d) :: r_ext r)
  | RGap a n => (first_wins (r_map r) (gap_cells a n), (a, a + n) :: r_ext r)
  | RSkip _ | RTrim _ => (r_map r, r_ext r)
  end.
Definition target (r : rstate) (o : rop) : Z := match o with RSkip t => t | _ => r_pos r end.
(** One operation.  Behind a gap the reader may be kept waiting until the next skip. *)
Inductive rstep (r : rstate) (o : rop) : list obs -> rstate -> Prop :=
| rs_go os q g : advance (fst (provide r o)) (target r o) os q g ->
    rstep r o os (mkR (fst (provide r o)) (snd (provide r o)) q g)
| rs_hold : r_gap r = true -> (match o with RSkip _ => False | _ => True end) ->
    rstep r o [] (mkR (fst (provide r o)) (snd (provide r o)) (r_pos r) true).

(** What the client has to respect ([auto]: automatic trimming is on). *)
Definition old (r : rstate) (o : rop) : Prop :=
  match o with RWrite a d => a + blen d <= r_pos r | _ => False end.
Definition admissible (auto : bool) (r : rstate) (o : rop) : Prop :=
  match o with
  | RWrite a d =>
      0 <= a /\ d <> [] /\ a + blen d < 2 ^ 64 /\
      (r_pos r <= a                                        (* starts at or after the reader's position, or *)
       \/ (old r o /\ r_gap r = false)                     (* ends at or before it, or *)
       \/ (auto = false /\ forall p, a <= p < r_pos r -> r_map r p <> None))   (* repeats everything before it *)
  | RGap a n => r_pos r <= a /\ 0 < n /\ a + n < 2 ^ 64 /\ forall p, a <= p < a + n -> r_map r p = None
  | RSkip t => r_pos r <= t < 2 ^ 64 /\ forall a b, In (a, b) (r_ext r) -> ~ (a < t < b)
  | RTrim t => auto = true /\ 0 <= t <= r_pos r
  end.

(** The calls a client makes and what it observes, relative to the initial sequence number [i]. *)
Definition call (i : Z) (o : rop) : sop :=
  match o with
  | RWrite a d => OWrite d (Some (u64 (i + a))) None
  | RGap a n => OGap (u64 (i + a)) n
  | RSkip t => OSkip (u64 (i + t))
  | RTrim t => OTrim (u64 (i + t))
  end.
Fixpoint obs_data (p : Z) (d : bytes) : list obs := match d with [] => [] | b :: d' => OByte p b :: obs_data (p + 1) d' end.
Definition obs_of (i : Z) (e : event) : list obs :=
  match e with
  | EvData q d => obs_data (u64 (q - i)) d
  | EvGap q n => [OMissing (u64 (q - i)) n]
  | _ => []
  end.
Definition observed (s : sink) : list obs := flat_map (obs_of (k_init s)) (k_log s).
Definition byte_of (o : obs) : list byte := match o with OByte _ b => [b] | OMissing _ _ => [] end.

(** Positions are observed in increasing order, none twice, all below [top]. *)
Fixpoint ordered (lo : Z) (os : list obs) (top : Z) : Prop :=
  match os with
  | [] => lo <= top
  | OByte p _ :: os' => lo <= p /\ ordered (p + 1) os' top
  | OMissing p n :: os' => lo <= p /\ 0 < n /\ ordered (p + n) os' top
  end.

(** A sink as a client gets it: units are connected, the initial sequence number set, nothing written yet. *)
Definition fresh (units : list sunit) (auto : bool) (i : Z) : sink := mkSink units auto 0 i 0 0 0 [] [] [].

(** Segments alone: what is known after a sequence of writes, and up to where it is known without interruption. *)
Definition seg : Type := Z * bytes.
Definition known (segs : list seg) : seqmap := fold_left (fun m g => first_wins m (data_cells (fst g) (snd g))) segs nothing.
Definition front (m : seqmap) (n : Z) : Prop := 0 <= n /\ (forall p, 0 <= p < n -> m p <> None) /\ m n = None.
(** [bs] is what the positions [p], [p+1], ... hold. *)
Definition reads (m : seqmap) (p : Z) (bs : bytes) : Prop :=
  forall k b, nth_error bs k = Some b -> m (p + Z.of_nat k) = Some (Byte b).
Definition wr (i : Z) (g : seg) : sop := OWrite (snd g) (Some (u64 (i + fst g))) None.
(** Segments are not empty and lie in the sequence space; with automatic trimming none reaches across the position up to
    which everything has arrived before. *)
Definition proper (auto : bool) (segs : list seg) : Prop :=
  forall before a d after, segs = before ++ (a, d) :: after ->
    0 <= a /\ d <> [] /\ a + blen d < 2 ^ 64 /\
    (auto = true -> forall n, front (known before) n -> n <= a \/ a + blen d <= n).
(** No two segments share a position. *)
Definition disjoint (segs : list seg) : Prop :=
  forall x a d y a' d' z, segs = x ++ (a, d) :: y ++ (a', d') :: z -> a + blen d <= a' \/ a' + blen d' <= a.

(** Every admissible operation of the client does to the sink what it does to the specification. *)
Fixpoint follows (auto : bool) (i : Z) (ops : list rop) (s : sink) (r : rstate) (os : list obs) : Prop :=
  observed s = os
  /\ ordered 0 os (r_pos r)
  /\ sequence_number s = u64 (i + r_pos r)
  /\ sink_size s = u64 (Z.of_nat (length (flat_map byte_of os)))
  /\ match ops with
     | [] => True
     | o :: ops' =>
         admissible auto r o ->
         match sstep (call i o) s with
         | SOk _ s' => exists r' os', rstep r o os' r' /\ follows auto i ops' s' r' (os ++ os')
         | SThrow e s' => (e = ParseError /\ exists u, In u (k_units s') /\ u_done u = true /\ u_skip u = false)
                          \/ (e = OutOfRange /\ auto = true /\ old r o)
         | SCrash => False
         end
     end.

(** ** Units *)
(** The pieces of data passed on. *)
Definition pieces (l : list event) : list bytes := flat_map (fun e => match e with EvData _ d => [d] | _ => [] end) l.
(** Operations that neither connect nor disconnect units. *)
Definition data_op (o : sop) : bool := match o with OWrite _ _ _ | OGap _ _ | OSkip _ | OTrim _ => true | _ => false end.
(** A unit's input only grows; a unit that has completed or failed is left alone. *)
Definition grow (u u' : sunit) : Prop :=
  u_beh u' = u_beh u /\ (exists more, u_in u' = u_in u ++ more) /\ (u_done u = true \/ u_skip u = true -> u' = u).
(** Units that have not failed have been given every piece; failed ones an initial part. *)
Definition given (ds : list bytes) (u u' : sunit) : Prop :=
  (u_skip u' = false -> u_in u' = u_in u ++ ds) /\ (exists some rest, ds = some ++ rest /\ u_in u' = u_in u ++ some)
  /\ (u_skip u = true -> u' = u).
(** All units ever connected that have not been forgotten, in order of connection. *)
Definition all_units (s : sink) : list sunit := k_closed s ++ k_units s.
(** From one state to a later one. *)
Definition later (s s' : sink) : Prop :=
  (exists evs, k_log s' = k_log s ++ evs) /\
  (exists more, k_closed s' = k_closed s ++ more) /\
  (exists now new, all_units s' = now ++ new /\ Forall2 grow (all_units s) now).
(** Every unit that has not failed has been given everything that was passed on. *)
Definition got (units : list sunit) (s : sink) : Prop :=
  Forall2 (fun u u' => u_skip u' = false -> concat (u_in u') = concat (u_in u) ++ delivered (k_log s)) units (k_units s).

(** ** Arrangements of writes *)
(** Consecutive segments from [p] on. *)
Fixpoint tile (p : Z) (ds : list bytes) : list seg := match ds with [] => [] | d :: ds' => (p, d) :: tile (p + blen d) ds' end.
(** Writes of consecutive data from [p] on, each with or without explicit sequence number. *)
Definition opt_wr (i p : Z) (g : bool * bytes) : sop := OWrite (snd g) (if fst g then Some (u64 (i + p)) else None) None.
Fixpoint in_order (i p : Z) (gs : list (bool * bytes)) : list sop :=
  match gs with [] => [] | g :: gs' => opt_wr i p g :: in_order i (p + blen (snd g)) gs' end.

(** ** Shifting the sequence space by [k] *)
Definition shift_ev (k : Z) (e : event) : event :=
  match e with
  | EvData q d => EvData (u64 (q + k)) d
  | EvGap q n => EvGap (u64 (q + k)) n
  | EvOverlap q a b => EvOverlap (u64 (q + k)) a b
  | EvSkipped q => EvSkipped (u64 (q + k))
  | EvUndelivered q d => EvUndelivered (u64 (q + k)) d
  end.
Definition shift_op (k : Z) (o : sop) : sop :=
  match o with
  | OWrite d (Some q) n => OWrite d (Some (u64 (q + k))) n
  | OGap q n => OGap (u64 (q + k)) n
  | OSkip q => OSkip (u64 (q + k))
  | OTrim q => OTrim (u64 (q + k))
  | OInitSeq q => OInitSeq (u64 (q + k))
  | _ => o
  end.

(** Closing a sink (which a rejected change of the initial sequence number does, too) resets the initial sequence number. *)
Definition keeps_base (o : sop) : bool := match o with OInitSeq _ | OClose => false | _ => true end.
