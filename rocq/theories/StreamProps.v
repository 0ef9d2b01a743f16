(** Properties C01-C06. The specification is StreamSpec.v (a queue addressed by absolute offsets); [contract] is the
    client contract stated there. *)
From Verif Require Import Base StreamModel StreamSpec StreamProofs StreamProofs2.

(** A program of client operations used for non-vacuity below: appends in several chunks, a gap, iterators, trims. *)
Definition demo : list op :=
  [OAppend [1;2;3]%Z; OBegin; OAppendNonOwning [4;5]%Z; OGap 2; OAppend [6]%Z; OAt 4; OIncr 0 2; ODeref 2; ODeref 1;
   OTrim 2; ODeref 0; OIncr 1 1; ODeref 3; OIncr 3 2; ODeref 4; OSize; OFreeze; OAppend [9]%Z; OUnfreeze; OAppend [7;8]%Z;
   OIncr 4 2; ODeref 5; OEnd; OIsEnd 6; OStats; ODestroy; ODeref 4].

(** C01 (and the functional half of C02): every observable result of every client program equals the one computed on the
    queue. *)
Theorem C01_stream_is_offset_addressed_queue :
  forall os, contract queue_new os = true -> snd (run client_new os) = snd (spec_run queue_new os).
Proof. exact stream_is_queue. Qed.
Print Assumptions C01_stream_is_offset_addressed_queue.

Example C01_nonvacuous : contract queue_new demo = true /\
  snd (run client_new demo) =
  [Ok VUnit; Ok VUnit; Ok VUnit; Ok VUnit; Ok VUnit; Ok VUnit; Ok VUnit; Ok (VByte 3%Z); Ok (VByte 5%Z);
   Ok VUnit; Throw InvalidIterator; Ok VUnit; Throw MissingData; Ok VUnit; Ok (VByte 6%Z); Ok (VNat 6); Ok VUnit;
   Throw Frozen; Ok VUnit; Ok VUnit; Ok VUnit; Ok (VByte 8%Z); Ok VUnit; Ok (VBool true);
   Ok (VStats (mkStats 8 4 2 1)); Ok VUnit; Throw InvalidIterator].
Proof. vm_compute. split; reflexivity. Qed.

(** The same for a stream created from non-empty bytes. *)
Theorem C01_stream_from_bytes_is_queue : forall bs os,
  let q := mkQueue 0 (map CByte bs) false false (mkStats (length bs) 1 0 0) [] in
  bs <> [] -> contract q os = true -> snd (run (mkClient (chain_of_bytes bs) []) os) = snd (spec_run q os).
Proof. intros bs os q N H. apply (run_sim os _ _ (from_bytes_sim bs N) H). Qed.
Print Assumptions C01_stream_from_bytes_is_queue.

Example C01_from_bytes_nonvacuous :
  contract (mkQueue 0 (map CByte [1;2;3]%Z) false false (mkStats 3 1 0 0) []) [OAt 2; OAppend [4]%Z; OTrim 0; ODeref 0; OSize] = true /\
  snd (run (mkClient (chain_of_bytes [1;2;3]%Z) []) [OAt 2; OAppend [4]%Z; OTrim 0; ODeref 0; OSize]) =
    [Ok VUnit; Ok VUnit; Ok VUnit; Ok (VByte 3%Z); Ok (VNat 2)].
Proof. split; reflexivity. Qed.

(** C02: no undefined behaviour: within the contract, and - whatever positions are trimmed to - for all programs that use
    neither end() nor reset(). *)
Theorem C02_iterators_safe :
  forall os, contract queue_new os = true -> ~ In UB (snd (run client_new os)).
Proof. exact stream_safe. Qed.
Print Assumptions C02_iterators_safe.

Theorem C02_iterators_safe_without_end :
  forall os, forallb no_end_reset os = true -> ~ In UB (snd (run client_new os)).
Proof. exact any_trim_safe. Qed.
Print Assumptions C02_iterators_safe_without_end.

Example C02_nonvacuous :
  forallb no_end_reset [OAppend [1;2;3;4;5]%Z; OBegin; OAt 4; OAt 2; OTrim 1; OTrim 2; ODeref 0; OIncr 0 3; ODeref 3] = true.
Proof. reflexivity. Qed.

(** What is missing from C02: the API also documents end() as a source of safe iterators.  Trimming to an end() iterator
    after more data arrived leaves it with a pointer to a chunk that is no longer part of the stream. *)
Theorem C02_end_iterator_refuted :
  exists os, forallb no_reset os = true /\ In UB (snd (run client_new os)).
Proof.
  exists [OAppend [1;2;3;4;5]%Z; OEnd; OAppend [6;7;8;9]%Z; OTrim 0; ODeref 0].
  split; [reflexivity|]. vm_compute. tauto.
Qed.
Print Assumptions C02_end_iterator_refuted.

(** reset() keeps iterators "valid" although their chunks are gone. *)
Theorem C02_reset_refuted :
  exists os, ~ In OEnd os /\ In UB (snd (run client_new os)).
Proof.
  exists [OAppend [1;2;3;4;5]%Z; OBegin; OReset; OAppend [6;7;8;9]%Z; ODeref 0].
  split; [intros H; repeat (destruct H as [H|H]; [discriminate|]); exact H|]. vm_compute. tauto.
Qed.
Print Assumptions C02_reset_refuted.

(** A stream created from empty bytes starts with a zero-size chunk; trimming it to its beginning drops that chunk and
    leaves begin() dangling. *)
Theorem C02_empty_stream_refuted :
  exists os, forallb no_end_reset os = true /\ In UB (snd (run (mkClient (chain_of_bytes []) []) os)).
Proof.
  exists [OBegin; OTrim 0; OAppend [6;7;8;9]%Z; OTrim 0; ODeref 0].
  split; [reflexivity|]. vm_compute. tauto.
Qed.
Print Assumptions C02_empty_stream_refuted.

(** C03: within the contract (trims at or after the start) data once below the start never comes back. *)
Theorem C03_trim_is_permanent :
  forall os1 os2 o, contract queue_new (os1 ++ os2) = true -> forallb no_reset os2 = true ->
  o < start (fst (run client_new os1)) ->
  it_deref (cl_chain (fst (run client_new (os1 ++ os2)))) (mkIter o None) = Throw InvalidIterator.
Proof. exact trim_permanent. Qed.
Print Assumptions C03_trim_is_permanent.

Example C03_nonvacuous :
  let os1 := [OAppend [1;2;3]%Z; OAppend [4;5]%Z; OAt 4; OTrim 0] in
  let os2 := [OAppend [6]%Z; OAt 5; OTrim 1] in
  contract queue_new (os1 ++ os2) = true /\ forallb no_reset os2 = true /\ 3 < start (fst (run client_new os1)).
Proof. vm_compute. repeat split; lia. Qed.

(** What is missing from C03: trimming to an earlier position of the head chunk moves the start back. *)
Theorem C03_untrim_refuted :
  exists os1 os2 o, forallb no_reset (os1 ++ os2) = true /\
    o < start (fst (run client_new os1)) /\
    it_deref (cl_chain (fst (run client_new os1))) (mkIter o None) = Throw InvalidIterator /\
    exists b, it_deref (cl_chain (fst (run client_new (os1 ++ os2)))) (mkIter o None) = Ok b.
Proof.
  exists [OAppend [1;2;3;4;5;6;7;8]%Z; OAt 5; OAt 3; OTrim 0], [OTrim 1], 4.
  vm_compute. repeat split; try lia. eauto.
Qed.
Print Assumptions C03_untrim_refuted.

(** C04 *)
Theorem C04_frozen_rejects_append :
  forall ch bs, ch_is_frozen ch = true -> bs <> [] ->
  (exists ch', append_copy ch bs = (ch', Throw Frozen) /\
     ch_state ch' = ch_state ch /\ ch_chunks ch' = ch_chunks ch /\ ch_hoff ch' = ch_hoff ch /\ ch_stats ch' = ch_stats ch) /\
  (exists ch', append_nonowning ch bs = (ch', Throw Frozen) /\
     ch_state ch' = ch_state ch /\ ch_chunks ch' = ch_chunks ch /\ ch_hoff ch' = ch_hoff ch /\ ch_stats ch' = ch_stats ch).
Proof. exact frozen_append. Qed.
Print Assumptions C04_frozen_rejects_append.

Theorem C04_frozen_rejects_gap :
  forall ch n, ch_is_frozen ch = true -> 0 < n ->
  exists ch', append_gap ch n = (ch', Throw Frozen) /\
     ch_state ch' = ch_state ch /\ ch_chunks ch' = ch_chunks ch /\ ch_hoff ch' = ch_hoff ch /\ ch_stats ch' = ch_stats ch.
Proof. exact frozen_gap. Qed.
Print Assumptions C04_frozen_rejects_gap.

Theorem C04_only_unfreezing_thaws :
  forall s o, ch_is_frozen (cl_chain s) = true -> thaws o = false ->
  ch_is_frozen (cl_chain (fst (step s o))) = true.
Proof. exact frozen_until. Qed.
Print Assumptions C04_only_unfreezing_thaws.

Theorem C04_unfreeze_then_append_works :
  forall ch bs, ch_is_valid ch = true -> snd (append_copy (ch_unfreeze (ch_freeze ch)) bs) = Ok tt.
Proof. exact unfreeze_append. Qed.
Print Assumptions C04_unfreeze_then_append_works.

Example C04_nonvacuous :
  let s := fst (run client_new [OAppend [1;2]%Z; OFreeze]) in
  ch_is_frozen (cl_chain s) = true /\ ch_is_valid (cl_chain s) = true.
Proof. vm_compute. auto. Qed.

(** C05: the counters are the tally of the successful appends, for every program (trims included). *)
Theorem C05_statistics_count_appends :
  forall os, forallb keeps_object os = true ->
  ch_stats (cl_chain (fst (run client_new os))) =
  fold_left tally (combine os (snd (run client_new os))) (mkStats 0 0 0 0).
Proof. exact (fun os => run_stats os client_new). Qed.
Print Assumptions C05_statistics_count_appends.

Example C05_nonvacuous :
  let os := [OAppend [1;2;3]%Z; OAppend []; OGap 4; OBegin; OIncr 0 5; OTrim 1; OFreeze; OAppend [1]%Z] in
  forallb keeps_object os = true /\
  ch_stats (cl_chain (fst (run client_new os))) = mkStats 3 1 4 1.
Proof. vm_compute. auto. Qed.

(** C06: a copy is a fresh, unfrozen stream, numbered from 0, that behaves in every client program like a queue holding the
    original's content, possibly preceded by some cells the original had already trimmed off ([old]); none if nothing was
    trimmed off the original. *)
Theorem C06_copy_behaves_like_content : forall os ch q,
  contract queue_new os = true -> ch = cl_chain (fst (run client_new os)) -> q = fst (spec_run queue_new os) -> ch_is_valid ch = true ->
  exists n old, ch_copy ch = Ok n /\ (q_begin q = 0 -> old = []) /\
    let q' := mkQueue 0 (old ++ q_cells q) false false (q_stats q) [] in
    forall os', contract q' os' = true -> snd (run (mkClient n []) os') = snd (spec_run q' os').
Proof.
  intros os ch q Hc Hch Hq V. destruct (copy_sim os ch q Hc Hch Hq V) as (n & old & E & A & S).
  exists n, old. split; [exact E|]. split.
  - intros Z. apply A. eapply begin_zero_aligned; eassumption.
  - intros q' os' H. apply (run_sim os' _ _ S H).
Qed.
Print Assumptions C06_copy_behaves_like_content.

(** Nothing comes back if the start is the beginning of a chunk: same content relative to the start. *)
Theorem C06_copy_of_aligned_stream :
  forall os ch, contract queue_new os = true -> ch = cl_chain (fst (run client_new os)) ->
  ch_is_valid ch = true -> ch_hoff ch = base ch ->
  exists n, ch_copy ch = Ok n /\ ch_hoff n = 0 /\ ch_end n = ch_end ch - ch_hoff ch /\
    ch_stats n = ch_stats ch /\
    forall o, ch_in_range ch o = true -> content n (o - ch_hoff ch) = content ch o.
Proof. exact copy_aligned. Qed.
Print Assumptions C06_copy_of_aligned_stream.

Example C06_nonvacuous :
  let os := [OAppend [1;2;3]%Z; OAppend [4;5]%Z; OAt 3; OTrim 0] in
  let ch := cl_chain (fst (run client_new os)) in
  contract queue_new os = true /\ ch_is_valid ch = true /\ ch_hoff ch = base ch /\ ch_hoff ch = 3.
Proof. vm_compute. auto. Qed.

(** The copy of a stream that was trimmed inside a chunk shows the trimmed bytes again and has another size; the copy of a
    frozen stream is not frozen. *)
Theorem C06_copy_resurrects_refuted :
  exists os ch n, contract queue_new os = true /\ ch = cl_chain (fst (run client_new os)) /\
    ch_copy ch = Ok n /\ ch_size ch = Ok 2 /\ ch_size n = Ok 5 /\ ch_is_frozen ch <> ch_is_frozen n.
Proof.
  exists [OAppend [1;2;3;4;5]%Z; OAt 3; OTrim 0; OFreeze]. do 2 eexists. vm_compute.
  repeat split; try reflexivity. discriminate.
Qed.
Print Assumptions C06_copy_resurrects_refuted.
