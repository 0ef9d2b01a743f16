(** Model of spicy/runtime/include/filter.h, of the waiting loop of a unit that has filters (spicy/runtime/src/parser.cc:207-236)
    and of a sink's delivery through filters (spicy/runtime/src/sink.cc:122-139, 426-428).

    Simplifications: a stream is the bytes ever appended to it and its frozen flag (trimming does not matter here, gaps are
    not modelled); units are numbers; a filter unit's parse function is a resumable computation, given by what one resumption
    does: the parameter [beh]. It sees all of its input so far and whether that is complete, calls [forward] and
    [forward_eod] any number of times, and then suspends, finishes or fails. The code generated for a unit calls
    [filter_forward_eod] after the unit has finished or failed (spicy/toolchain/src/compiler/codegen/parser-builder.cc:2855-2858).
    Filters do not themselves connect filters to the same unit while running, and have no filters of their own. *)
From Verif Require Import Base FiberModel.

(** what a filter unit calls: filter.h:240-257 forward, 278-291 forward_eod *)
Inductive fact := FData (bs : bytes) | FEod.

Record stream := mkStream { s_data : bytes; s_frozen : bool }.

(** stream.cc:94-118 append: nothing for no data, Frozen if frozen *)
Definition s_append (s : stream) (bs : bytes) : res stream :=
  match bs with
  | [] => Ok s
  | _ => if s_frozen s then Throw Frozen else Ok (mkStream (s_data s ++ bs) false)
  end.
Definition s_freeze (s : stream) : stream := mkStream (s_data s) true.

Section Filters.
Variable S : Type.
(** outcome of a resumption *)
Inductive verdict := VYield (s : S) | VFinish | VFail (e : exn).
(** Resumable of a filter: not yet set, suspended, or without fiber (finished, failed) *)
Inductive fres := Unstarted | Suspended (s : S) | Ended.

(** filter.h:24-41 OneFilter: the unit, the stream it forwards to ([f_input], "input" of the unit behind it), its Resumable.
    [f_src], [f_off]: the stream and offset that its parse function was started with. *)
Record onefilter := mkF { f_unit : nat; f_input : nat; f_src : nat; f_off : nat; f_res : fres }.

(** the streams, the next free stream, and each filter unit's HILTI_INTERNAL(forward) *)
Record mem := mkM { m_str : nat -> stream; m_next : nat; m_fwd : nat -> option nat }.
Definition set_str (m : mem) (i : nat) (s : stream) : mem := mkM (fup (m_str m) i s) (m_next m) (m_fwd m).

(** events, for the statements: data and end of data arriving at the first filter's source; a filter being run, with what
    it saw, what it forwarded, and whether it ended *)
Inductive event :=
| EIn (bs : bytes)
| EInEod
| ERun (u : nat) (seen : bytes) (eod : bool) (facts : list fact) (ended : bool).

(** parameters: initial state of a filter unit's parse function, and its resumptions *)
Variables (start : nat -> S) (beh : nat -> S -> bytes -> bool -> list fact * verdict).

(** filter.h:139-168 connect: a new stream, pushed with the filter; the filter unit forwards to it *)
Definition connect (m : mem) (fs : list onefilter) (u : nat) : mem * list onefilter :=
  let i := m_next m in
  (mkM (fup (m_str m) i (mkStream [] false)) (Datatypes.S i) (fup (m_fwd m) u (Some i)),
   fs ++ [mkF u i 0 0 Unstarted]).

(** filter.h:240-257 forward *)
Definition forward (m : mem) (u : nat) (bs : bytes) : res mem :=
  match m_fwd m u with
  | None => Ok m
  | Some i => let* s := s_append (m_str m i) bs in Ok (set_str m i s)
  end.

(** filter.h:270-284 forward_eod *)
Definition forward_eod (m : mem) (u : nat) : mem :=
  match m_fwd m u with None => m | Some i => set_str m i (s_freeze (m_str m i)) end.

(** the calls of one resumption, up to the first that throws *)
Fixpoint do_facts (m : mem) (u : nat) (fs : list fact) : mem * option exn :=
  match fs with
  | [] => (m, None)
  | FEod :: r => do_facts (forward_eod m u) u r
  | FData bs :: r => match forward m u bs with
                     | Ok m' => do_facts m' u r
                     | Throw e => (m, Some e)
                     | UB => (m, Some LogicError)
                     end
  end.

(** one resumption of a filter (Resumable::run, resume and yielded, hilti/runtime/src/fiber.cc:743-797): an exception is
    passed on to the caller; the unit's epilogue forwards the end of data *)
Definition run_filter (m : mem) (f : onefilter) (s : S) : res (mem * onefilter * event) :=
  let u := f_unit f in
  let str := m_str m (f_src f) in
  let seen := skipn (f_off f) (s_data str) in
  let '(facts, v) := beh u s seen (s_frozen str) in
  let with_res r := mkF u (f_input f) (f_src f) (f_off f) r in
  match do_facts m u facts with
  | (_, Some e) => Throw e
  | (m1, None) =>
      match v with
      | VYield s' => Ok (m1, with_res (Suspended s'), ERun u seen (s_frozen str) facts false)
      | VFinish => Ok (forward_eod m1 u, with_res Ended, ERun u seen (s_frozen str) facts true)
      | VFail e => Throw e
      end
  end.

(** filter.h:296-299 flush; resuming without a fiber throws std::logic_error (hilti/runtime/include/fiber.h:394-397) *)
Fixpoint flush (m : mem) (fs : list onefilter) : res (mem * list onefilter * list event) :=
  match fs with
  | [] => Ok (m, [], [])
  | f :: r =>
      match f_res f with
      | Suspended s =>
          let* x := run_filter m f s in
          let '(m1, f1, e) := x in
          let* y := flush m1 r in
          let '(m2, r2, es) := y in
          Ok (m2, f1 :: r2, e :: es)
      | _ => Throw LogicError
      end
  end.

(** filter.h:199-223 init, with the source of the first filter and its offset; the stream returned is the last filter's *)
Fixpoint init_go (m : mem) (src off : nat) (fs : list onefilter) : res (mem * list onefilter * list event) :=
  match fs with
  | [] => Ok (m, [], [])
  | f :: r =>
      let* x := run_filter m (mkF (f_unit f) (f_input f) src off Unstarted) (start (f_unit f)) in
      let '(m1, f1, e) := x in
      let* y := init_go m1 (f_input f) 0 r in
      let '(m2, r2, es) := y in
      Ok (m2, f1 :: r2, e :: es)
  end.
Definition out_stream (fs : list onefilter) : option nat := match rev fs with [] => None | f :: _ => Some (f_input f) end.

(** what the host application does with the input stream while the unit is suspended *)
Inductive iop := IAppend (bs : bytes) | IFreeze.
Definition iop_do (data : nat) (m : mem) (o : iop) : res mem :=
  match o with
  | IAppend bs => let* s := s_append (m_str m data) bs in Ok (set_str m data s)
  | IFreeze => Ok (set_str m data (s_freeze (m_str m data)))
  end.
Definition iop_ev (o : iop) : event := match o with IAppend bs => EIn bs | IFreeze => EInEod end.
Fixpoint iops (data : nat) (m : mem) (os : list iop) : res mem :=
  match os with [] => Ok m | o :: r => let* m' := iop_do data m o in iops data m' r end.

(** rounds of: new input, then flush *)
Fixpoint rounds (data : nat) (m : mem) (fs : list onefilter) (sched : list (list iop)) : res (mem * list onefilter * list event) :=
  match sched with
  | [] => Ok (m, fs, [])
  | os :: r =>
      let* m1 := iops data m os in
      let* x := flush m1 fs in
      let '(m2, fs2, es) := x in
      let* y := rounds data m2 fs2 r in
      let '(m3, fs3, es3) := y in
      Ok (m3, fs3, map iop_ev os ++ es ++ es3)
  end.

(** parser.cc:207-236 waitForInputOrEod of a unit with filters that has read up to [pos] of its filtered input: result true,
    false, or still suspended when the schedule is used up *)
Inductive waited := WMore | WEod | WSuspended.
Fixpoint wait_filtered (data out pos old : nat) (m : mem) (fs : list onefilter) (sched : list (list iop)) : res (waited * mem * list onefilter) :=
  let size := (length (s_data (m_str m out)) - pos)%nat in
  if negb (size =? old)%nat then Ok (WMore, m, fs) else
  if s_frozen (m_str m out) then Ok (WEod, m, fs) else
  match sched with
  | [] => Ok (WSuspended, m, fs)
  | os :: r =>
      let* m1 := iops data m os in
      let* x := flush m1 fs in
      let '(m2, fs2, _) := x in
      wait_filtered data out pos old m2 fs2 r
  end.

(** filter.h:107-129 disconnect: filters are aborted and dropped, and with them the streams they forward to, so that their
    [forward] references expire *)
Definition disconnect (m : mem) (fs : list onefilter) : mem * list onefilter :=
  (mkM (m_str m) (m_next m) (fun u => if existsb (fun f => Nat.eqb (f_unit f) u) fs then None else m_fwd m u), []).

(** A sink with filters: what its connected units have been given so far, piece by piece, and _filter_data (sink.h:335-341):
    the input stream, and the output stream with the offset of output_cur, once the first data has arrived. *)
Record fsink := mkFS { fs_mem : mem; fs_flt : list onefilter; fs_data : option (nat * nat * nat); fs_out : list bytes }.

(** sink.cc:122-139: the part of _deliver that concerns filters, for non-empty data. A piece goes on to the units (sink.cc:141 ff.) *)
Definition sink_deliver (k : fsink) (bs : bytes) : res fsink :=
  let m0 := fs_mem k in
  let* x :=
    match fs_data k with
    | Some d => Ok (m0, fs_flt k, d)
    | None =>
        let i := m_next m0 in
        let* y := init_go (mkM (fup (m_str m0) i (mkStream [] false)) (Datatypes.S i) (m_fwd m0)) i 0 (fs_flt k) in
        let '(m1, fs1, _) := y in
        match out_stream fs1 with
        | Some o => Ok (m1, fs1, (i, o, 0))
        | None => UB
        end
    end in
  let '(m1, fs1, (i, o, c)) := x in
  let* s := s_append (m_str m1 i) bs in
  let* y := flush (set_str m1 i s) fs1 in
  let '(m2, fs2, _) := y in
  let piece := skipn c (s_data (m_str m2 o)) in
  let outs := match piece with [] => fs_out k | _ => fs_out k ++ [piece] end in
  Ok (mkFS m2 fs2 (Some (i, o, c + length piece)%nat) outs).

Fixpoint sink_writes (k : fsink) (ws : list bytes) : res fsink :=
  match ws with [] => Ok k | w :: r => let* k' := sink_deliver k w in sink_writes k' r end.

(** sink.cc:426-428: closing the sink disconnects the filters and drops _filter_data; nothing is delivered *)
Definition sink_close (k : fsink) : fsink :=
  let '(m, fs) := disconnect (fs_mem k) (fs_flt k) in mkFS m fs None (fs_out k).
End Filters.

Arguments VYield {S} s.
Arguments VFinish {S}.
Arguments VFail {S} e.
Arguments Unstarted {S}.
Arguments Suspended {S} s.
Arguments Ended {S}.
Arguments mkF {S}.
Arguments f_unit {S} _.
Arguments f_input {S} _.
Arguments f_src {S} _.
Arguments f_off {S} _.
Arguments f_res {S} _.
Arguments connect {S} m fs u.
Arguments run_filter {S} beh m f s.
Arguments flush {S} beh m fs.
Arguments init_go {S} start beh m src off fs.
Arguments rounds {S} beh data m fs sched.
Arguments wait_filtered {S} beh data out pos old m fs sched.
Arguments out_stream {S} fs.
Arguments disconnect {S} m fs.
Arguments mkFS {S}.
Arguments fs_mem {S} _.
Arguments fs_flt {S} _.
Arguments fs_data {S} _.
Arguments fs_out {S} _.
Arguments sink_deliver {S} start beh k bs.
Arguments sink_writes {S} start beh k ws.
Arguments sink_close {S} k.
