(** Model of spicy::rt::Sink: spicy/runtime/src/sink.cc and spicy/runtime/include/sink.h, without filters
    ([_filter] is never set; filters are modelled in FilterModel.v), without connect_mime_type (see RegistryModel.v)
    and without debug output.

    uint64_t values are integers in [0, 2^64) with explicit reduction.  std::list is a list, an iterator into it an
    index; an uninitialised iterator is [None].  Connected units are abstract: see [sunit]. *)
From Verif Require Import Base BytesModel.
Open Scope Z_scope.

(** uint64_t arithmetic *)
Definition u64 (x : Z) : Z := x mod 2 ^ 64.

(** sink.h:259-266 Chunk; no data means gap *)
Record chunk := mkChunk { c_data : option bytes; c_seq : Z; c_upper : Z }.

(** What the parser of a connected unit does when resumed: it suspends waiting for more input, completes, or fails. *)
Inductive ustat := Waiting | Completed | Failing.
(** sink.h:38-58 State together with its unit: [u_beh] says what the parser does depending on the pieces of input it has
    been given so far, [u_in] is what has been appended to State::data, [u_skip] is State::skip_delivery, [u_done]
    whether the resumable has finished.  Simplified: the behaviour is a function of the input. *)
Record sunit := mkUnit { u_beh : list bytes -> ustat; u_in : list bytes; u_skip : bool; u_done : bool }.

(** What an observer sees: data passed on by _deliver (with its absolute sequence number), and the calls of the units'
    hooks %gap, %overlap, %skipped, %undelivered. *)
Inductive event :=
| EvData (seq : Z) (data : bytes)
| EvGap (seq len : Z)
| EvOverlap (seq : Z) (old new : bytes)
| EvSkipped (seq : Z)
| EvUndelivered (seq : Z) (data : bytes).

(** sink.h:328-351 members; [k_log] is the history of events and [k_closed] the units that have been disconnected: neither
    exists in the code, they record what is observable. *)
Record sink := mkSink {
  k_units : list sunit;
  k_auto : bool;
  k_size : Z;
  k_init : Z;
  k_cur : Z;
  k_last : Z;
  k_trim : Z;
  k_chunks : list chunk;
  k_log : list event;
  k_closed : list sunit }.

(** sink.cc:13-24 _init *)
Definition sink0 : sink := mkSink [] true 0 0 0 0 0 [] [] [].

Definition set_units (s : sink) (x : list sunit) : sink :=
  mkSink x (k_auto s) (k_size s) (k_init s) (k_cur s) (k_last s) (k_trim s) (k_chunks s) (k_log s) (k_closed s).
Definition set_auto (s : sink) (x : bool) : sink :=
  mkSink (k_units s) x (k_size s) (k_init s) (k_cur s) (k_last s) (k_trim s) (k_chunks s) (k_log s) (k_closed s).
Definition set_size (s : sink) (x : Z) : sink :=
  mkSink (k_units s) (k_auto s) x (k_init s) (k_cur s) (k_last s) (k_trim s) (k_chunks s) (k_log s) (k_closed s).
Definition set_init (s : sink) (x : Z) : sink :=
  mkSink (k_units s) (k_auto s) (k_size s) x (k_cur s) (k_last s) (k_trim s) (k_chunks s) (k_log s) (k_closed s).
Definition set_cur (s : sink) (x : Z) : sink :=
  mkSink (k_units s) (k_auto s) (k_size s) (k_init s) x (k_last s) (k_trim s) (k_chunks s) (k_log s) (k_closed s).
Definition set_last (s : sink) (x : Z) : sink :=
  mkSink (k_units s) (k_auto s) (k_size s) (k_init s) (k_cur s) x (k_trim s) (k_chunks s) (k_log s) (k_closed s).
Definition set_trim (s : sink) (x : Z) : sink :=
  mkSink (k_units s) (k_auto s) (k_size s) (k_init s) (k_cur s) (k_last s) x (k_chunks s) (k_log s) (k_closed s).
Definition set_chunks (s : sink) (x : list chunk) : sink :=
  mkSink (k_units s) (k_auto s) (k_size s) (k_init s) (k_cur s) (k_last s) (k_trim s) x (k_log s) (k_closed s).
Definition log (s : sink) (e : list event) : sink :=
  mkSink (k_units s) (k_auto s) (k_size s) (k_init s) (k_cur s) (k_last s) (k_trim s) (k_chunks s) (k_log s ++ e) (k_closed s).

(** Outcome of a sink operation: normal return, an exception (with the state left behind), or a crash. *)
Inductive sres (A : Type) := SOk (a : A) (s : sink) | SThrow (e : exn) (s : sink) | SCrash.
Arguments SOk {A} a s.
Arguments SThrow {A} e s.
Arguments SCrash {A}.
Definition sbind {A B} (x : sres A) (f : A -> sink -> sres B) : sres B :=
  match x with SOk a s => f a s | SThrow e s => SThrow e s | SCrash => SCrash end.
(** A call of a Bytes method from the sink. *)
Definition scall {A B} (r : res A) (s : sink) (f : A -> sres B) : sres B :=
  match r with Ok a => f a | Throw e => SThrow e s | UB => SCrash end.

(** sink.h:278-281 _rseq; sink.h:284-287 _aseq *)
Definition rseq_of (s : sink) (seq : Z) : Z := u64 (seq - k_init s).
Definition aseq (s : sink) (rseq : Z) : Z := u64 (k_init s + rseq).

(** std::list::insert before index [i] *)
Definition insert_at {A} (l : list A) (i : nat) (x : A) : list A := firstn i l ++ x :: skipn i l.

(** sink.cc:37-39: the number of chunks passed over by the search loop *)
Fixpoint count_before (rseq : Z) (l : list chunk) : nat :=
  match l with
  | c :: l' => if c_upper c <=? rseq then S (count_before rseq l') else 0%nat
  | [] => 0%nat
  end.

(** sink.cc:26-100 _addAndCheck, called recursively at most once per chunk: [n] bounds the recursion, see
    SinkProofs.add_fuel.  The result is the returned iterator. *)
Fixpoint add_and_check (n : nat) (data : option bytes) (rseq rupper : Z) (c : nat) (s : sink) : sres (option nat) :=
  match n with
  | O => SCrash
  | S n' =>
    let app := SOk (Some (length (k_chunks s))) (set_chunks s (k_chunks s ++ [mkChunk data rseq rupper])) in
    match rev (k_chunks s) with
    | [] => SCrash
    | back :: _ =>
      (* sink.cc:32-35 *)
      if rseq =? c_upper back then app
      else
        let c := (c + count_before rseq (skipn c (k_chunks s)))%nat in
        match nth_error (k_chunks s) c with
        | None => app
        | Some x =>
          if rupper <=? c_seq x then SOk (Some c) (set_chunks s (insert_at (k_chunks s) c (mkChunk data rseq rupper)))
          else
            (* sink.cc:56-70: the prefix; result: new_c, c, data, rseq *)
            sbind
              (if rseq <? c_seq x then
                 let plen := u64 (c_seq x - rseq) in
                 match data with
                 | Some d =>
                   scall (sub_to d plen) s (fun p =>
                   let s := set_chunks s (insert_at (k_chunks s) c (mkChunk (Some p) rseq (u64 (rseq + plen)))) in
                   scall (sub d plen (blen d)) s (fun d' =>
                   SOk (Some c, S c, Some d', u64 (rseq + plen)) s))
                 | None => SOk (None, c, None, u64 (rseq + plen)) s
                 end
               else SOk (Some c, c, data, rseq) s)
              (fun '(new_c, c, data, rseq) s =>
               let new_len := u64 (rupper - rseq) in
               let c_len := u64 (c_upper x - rseq) in
               let olen := if new_len <? c_len then new_len else c_len in
               scall (match c_data x with
                      | Some d => sub d (u64 (rseq - c_seq x)) (u64 (rseq - c_seq x + olen))
                      | None => Ok [] end) s (fun old =>
               scall (match data with Some d => sub_to d olen | None => Ok [] end) s (fun new =>
               let s := log s [EvOverlap (aseq s rseq) old new] in
               match data with
               | Some d =>
                 if olen <? new_len then
                   scall (sub d olen (blen d)) s (fun d' =>
                   sbind (add_and_check n' (Some d') (u64 (rseq + olen)) rupper c s) (fun r s =>
                   match new_c with
                   | Some i => if Nat.eqb i c then SOk r s else SOk new_c s
                   | None => SOk new_c s
                   end))
                 else SOk new_c s
               | None => SOk new_c s
               end)))
        end
    end
  end.

(** sink.cc:143-152: the units to deliver to; a unit that has completed makes the delivery fail *)
Definition any_completed (us : list sunit) : bool := existsb (fun u => negb (u_skip u) && u_done u) us.
(** sink.cc:154-170: pass data to one unit and resume it *)
Definition feed (data : bytes) (u : sunit) : sunit :=
  if u_skip u then u
  else
    let ps := u_in u ++ [data] in
    match u_beh u ps with
    | Waiting => mkUnit (u_beh u) ps false false
    | Completed => mkUnit (u_beh u) ps false true
    | Failing => mkUnit (u_beh u) ps true true
    end.

(** sink.cc:102-178 _deliver (without filter) *)
Definition deliver (data : option bytes) (rseq rupper : Z) (s : sink) : sres bool :=
  match data with
  | None =>
      if k_cur s =? rupper then SOk false s
      else SOk false (set_cur (log s [EvGap (aseq s rseq) (u64 (rupper - rseq))]) rupper)
  | Some [] => SOk true s
  | Some d =>
      let s := set_size s (u64 (k_size s + blen d)) in
      if any_completed (k_units s) then SThrow ParseError s
      else
        let s := log (set_units s (map (feed d) (k_units s))) [EvData (aseq s rseq) d] in
        SOk true (set_last (set_cur s rupper) rupper)
  end.

(** sink.cc:248-265 _trim: the loop over the leading chunks *)
Fixpoint trim_loop (rseq cur : Z) (asq : Z -> Z) (l : list chunk) : list event * list chunk :=
  match l with
  | [] => ([], [])
  | c :: l' =>
      if rseq <=? c_seq c then ([], l)
      else
        let r := trim_loop rseq cur asq l' in
        match c_data c with
        | Some d => ((if cur <? c_seq c then [EvUndelivered (asq (c_seq c)) d] else []) ++ fst r, snd r)
        | None => r
        end
  end.
Definition do_trim (rseq : Z) (s : sink) : sink :=
  let r := trim_loop rseq (k_cur s) (aseq s) (k_chunks s) in
  set_trim (set_chunks (log s (fst r)) (snd r)) rseq.

(** sink.cc:273-288: the loop of _tryDeliver over the chunks from [c] on *)
Fixpoint deliver_loop (l : list chunk) (s : sink) : sres unit :=
  match l with
  | [] => SOk tt s
  | c :: l' =>
      if c_seq c =? k_last s then
        let s := set_last s (u64 (k_last s + u64 (c_upper c - c_seq c))) in
        sbind (deliver (c_data c) (c_seq c) (c_upper c) s) (fun ok s =>
        if ok then deliver_loop l' s
        else SOk tt (if k_auto s then do_trim (c_seq c) s else s))
      else deliver_loop l' s
  end.
(** sink.cc:267-292 _tryDeliver *)
Definition try_deliver (c : nat) (s : sink) : sres unit :=
  sbind (deliver_loop (skipn c (k_chunks s)) s) (fun _ s =>
  SOk tt (if k_auto s then do_trim (k_last s) s else s)).

(** sink.cc:180-231 _newData *)
Definition new_data (data : option bytes) (rseq len : Z) (s : sink) : sres unit :=
  if len =? 0 then SOk tt s
  else if k_auto s && (match k_chunks s with [] => true | _ => false end) && (rseq =? k_cur s) then
    sbind (deliver data rseq (u64 (rseq + len)) s) (fun _ s => SOk tt s)
  else
    let rupper := u64 (rseq + len) in
    if rupper <=? k_trim s then SOk tt s
    else
      scall (if rseq <? k_trim s then
               match data with
               | Some d => rmap (fun d' => (Some d', u64 (rseq + u64 (k_trim s - rseq)))) (sub d (u64 (k_trim s - rseq)) (blen d))
               | None => Ok (None, u64 (rseq + u64 (k_trim s - rseq)))
               end
             else Ok (data, rseq)) s (fun '(data, rseq) =>
      sbind (match k_chunks s with
             | [] => SOk (Some 0%nat) (set_chunks s [mkChunk data rseq (u64 (rseq + len))])
             | _ => add_and_check (S (length (k_chunks s))) data rseq rupper 0 s
             end) (fun ic s =>
      match ic with
      | None => SCrash                     (* dereferences an uninitialised iterator *)
      | Some c =>
        match nth_error (k_chunks s) c with
        | None => SCrash
        | Some x =>
          if (k_last s <? c_seq x) || (c_upper x <=? k_last s) then SOk tt s else try_deliver c s
        end
      end)).

(** sink.cc:327-345 _reportUndeliveredUpTo; Bytes::sub(to) does not throw *)
Fixpoint undelivered_up_to (rupper : Z) (asq : Z -> Z) (l : list chunk) : list event :=
  match l with
  | [] => []
  | c :: l' =>
      if rupper <=? c_seq c then []
      else match c_data c with
           | None => undelivered_up_to rupper asq l'
           | Some d =>
               let b := if c_upper c <=? rupper then d else firstn (Z.to_nat (u64 (c_upper c - rupper))) d in
               EvUndelivered (asq (c_seq c)) b :: undelivered_up_to rupper asq l'
           end
  end.
(** sink.cc:233-246 _skip *)
Definition do_skip (rseq : Z) (s : sink) : sres unit :=
  let s := if k_auto s then do_trim rseq s else log s (undelivered_up_to rseq (aseq s) (k_chunks s)) in
  let s := set_last (set_cur s rseq) rseq in
  let s := log s [EvSkipped (aseq s rseq)] in
  try_deliver 0 s.

(** sink.cc:426-459 _close: every unit is given end of data (orderly) or aborted; all are disconnected *)
Definition do_close (s : sink) : sink :=
  mkSink [] true 0 0 0 0 0 [] (k_log s) (k_closed s ++ k_units s).

(** sink.h:61-76 connectUnit: the parser is started with empty input *)
Definition do_connect (beh : list bytes -> ustat) (s : sink) : sres unit :=
  match beh [] with
  | Failing => SThrow RuntimeError s
  | Waiting => SOk tt (set_units s (k_units s ++ [mkUnit beh [] false false]))
  | Completed => SOk tt (set_units s (k_units s ++ [mkUnit beh [] false true]))
  end.

(** The public interface, sink.h:112-118, 145, 190, 202, 209-216, 231, 238, 247; [write]: sink.cc:473-489. *)
Inductive sop :=
| OConnect (beh : list bytes -> ustat)
| OWrite (data : bytes) (seq len : option Z)
| OGap (seq len : Z)
| OSkip (seq : Z)
| OTrim (seq : Z)
| OAutoTrim (b : bool)
| OInitSeq (seq : Z)
| OClose.
Definition sstep (o : sop) (s : sink) : sres unit :=
  match o with
  | OConnect beh => do_connect beh s
  | OWrite [] _ _ => SOk tt s
  | OWrite d seq len =>
      let n := match len with Some n => n | None => blen d end in
      new_data (Some d) (match seq with Some q => rseq_of s q | None => k_cur s end) n s
  | OGap seq len => new_data None (rseq_of s seq) len s
  | OSkip seq => do_skip (rseq_of s seq) s
  | OTrim seq => SOk tt (do_trim (rseq_of s seq) s)
  | OAutoTrim b => SOk tt (set_auto s b)
  | OInitSeq seq =>
      (* sink.h:271 _haveInput *)
      if negb (k_cur s =? 0) || (match k_chunks s with [] => false | _ => true end)
      then SThrow SinkError (do_close s)
      else SOk tt (set_init s seq)
  | OClose => SOk tt (do_close s)
  end.
(** sink.h:195, 224 *)
Definition sequence_number (s : sink) : Z := u64 (k_init s + k_cur s).
Definition sink_size (s : sink) : Z := k_size s.

(** A client calling one operation after the other, catching exceptions. *)
Fixpoint srun (ops : list sop) (s : sink) : sres unit :=
  match ops with
  | [] => SOk tt s
  | o :: ops' => match sstep o s with SOk _ s' | SThrow _ s' => srun ops' s' | SCrash => SCrash end
  end.
(** A client that stops at the first exception. *)
Fixpoint sruns (ops : list sop) (s : sink) : sres unit :=
  match ops with
  | [] => SOk tt s
  | o :: ops' => sbind (sstep o s) (fun _ s' => sruns ops' s')
  end.

(** What has been passed on so far. *)
Definition payload (e : event) : bytes := match e with EvData _ d => d | _ => [] end.
Definition delivered (l : list event) : bytes := flat_map payload l.
