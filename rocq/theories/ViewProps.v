(** Properties C07-C13: views over a stream. A view is described by [view_at os ch q v lo hi] (ViewSpec.v): the stream [ch]
    results from the client program [os], [q] is the corresponding queue, and the view spans offsets [lo, hi). Its content
    is [window q lo hi]. All theorems hold for every program, i.e. for every chunking of the data. *)
From Verif Require Import Base StreamModel StreamSpec StreamProofs StreamProofs2 ViewModel ViewSpec
  ViewProofs ViewProofs2 ViewProofs3 ViewProofs4 ViewProofs5.

(** Example: three data chunks, then a gap, then data; the view spans [1, 6) of offsets 0..9. *)
Definition vdemo : list op :=
  [OAppend [10;11;12]%Z; OAppend [13;11]%Z; OAppend [12;14]%Z; OGap 2; OAppend [15]%Z; OAt 1; OAt 6; OAt 5; OAt 8].
Definition vdemo_s := fst (run client_new vdemo).
Definition vdemo_q := fst (spec_run queue_new vdemo).
Definition nth_it (s : client) k := nth k (cl_its s) (mkIter 0 None).
Definition vdemo_v := mkView (nth_it vdemo_s 0) (Some (nth_it vdemo_s 1)).
Definition vdemo_gap := mkView (nth_it vdemo_s 0) None.
Example view_nonvacuous : view_at vdemo (cl_chain vdemo_s) vdemo_q vdemo_v 1 (Some 6) /\
  window vdemo_q 1 (Some 6) = map CByte [11;12;13;11;12]%Z /\ q_begin vdemo_q <= 1 /\ ordered 1 (Some 6) /\
  holds vdemo_s vdemo_q (nth_it vdemo_s 2) 5.
Proof.
  split; [constructor; try reflexivity|repeat split; try reflexivity; cbn; try lia].
  - exists 0. eexists. vm_compute. repeat split.
  - exists 1. eexists. vm_compute. repeat split.
  - exists 2. eexists. vm_compute. repeat split.
Qed.
Example view_gap_nonvacuous : view_at vdemo (cl_chain vdemo_s) vdemo_q vdemo_gap 1 None /\
  In CGap (window vdemo_q 1 None) /\ In CGap (firstn 8 (window vdemo_q 1 None)) /\ 8 <= length (window vdemo_q 1 None).
Proof.
  split; [constructor; try reflexivity|vm_compute; repeat split; try lia; tauto].
  exists 0. eexists. vm_compute. repeat split.
Qed.

(** C07: size, advance, limit, trim, isComplete; use of a view whose beginning has been trimmed off throws. *)
Theorem C07_size_counts_available : forall os ch q v lo hi,
  view_at os ch q v lo hi -> q_begin q <= lo -> ordered lo hi ->
  v_size ch v = length (window q lo hi).
Proof. exact size_window. Qed.
Print Assumptions C07_size_counts_available.

Theorem C07_advance_drops_prefix : forall os ch q v lo hi n,
  view_at os ch q v lo hi -> q_begin q <= lo ->
  exists os' q' v', v_advance ch v n = Ok v' /\ view_at os' ch q' v' (lo + n) hi /\
    window q' (lo + n) hi = skipn n (window q lo hi).
Proof. exact advance_spec. Qed.
Print Assumptions C07_advance_drops_prefix.

Theorem C07_limit_never_enlarges : forall os ch q v lo hi n,
  view_at os ch q v lo hi -> q_begin q <= lo ->
  (match hi with Some e => lo <= e < Z.to_nat (2 ^ 64) | None => True end) ->
  exists os' q' v' hi', v_limit ch v n = Ok v' /\ view_at os' ch q' v' lo (Some hi') /\
    hi' = lo + (match hi with Some e => Nat.min n (e - lo) | None => n end) /\
    window q' lo (Some hi') = firstn n (window q lo hi).
Proof. exact limit_spec. Qed.
Print Assumptions C07_limit_never_enlarges.

(** sub(from, to) is the part [from, to) counted from the view's beginning: of the parent's content if it lies inside the
    parent, otherwise of what the stream has there (see C07_sub_escapes_parent_refuted). *)
Theorem C07_sub : forall os ch q v lo hi from to,
  view_at os ch q v lo hi -> q_begin q <= lo ->
  exists os' q' v', v_sub ch v from to = Ok v' /\ view_at os' ch q' v' (lo + from) (Some (lo + to)) /\
    window q' (lo + from) (Some (lo + to)) = firstn (to - from) (skipn from (window q lo None)) /\
    (match hi with Some e => lo + to <= e | None => True end ->
     window q' (lo + from) (Some (lo + to)) = firstn (to - from) (skipn from (window q lo hi))).
Proof. exact sub_spec. Qed.
Print Assumptions C07_sub.

Example C07_sub_nonvacuous : exists v', v_sub (cl_chain vdemo_s) vdemo_v 1 4 = Ok v' /\ v_size (cl_chain vdemo_s) v' = 3.
Proof. eexists. vm_compute. split; reflexivity. Qed.

Theorem C07_trim_drops_prefix : forall os ch q v lo hi i p,
  view_at os ch q v lo hi -> q_begin q <= lo -> ordered lo hi ->
  holds (fst (run client_new os)) q i p -> lo <= p ->
  exists v' lo', v_trim ch v i = Ok v' /\ view_at os ch q v' lo' hi /\
    lo' = (match hi with Some e => Nat.min p e | None => p end) /\
    window q lo' hi = skipn (p - lo) (window q lo hi).
Proof. exact trim_spec. Qed.
Print Assumptions C07_trim_drops_prefix.

Theorem C07_complete_iff_no_more_data_can_come : forall os ch q v lo hi,
  view_at os ch q v lo hi -> q_begin q <= lo ->
  v_is_complete ch v = Ok (q_frozen q || match hi with Some e => e <=? q_end q | None => false end).
Proof. exact complete_spec. Qed.
Print Assumptions C07_complete_iff_no_more_data_can_come.

Theorem C07_trimmed_view_throws : forall os ch q v lo hi,
  view_at os ch q v lo hi -> lo < q_begin q ->
  v_is_complete ch v = Throw InvalidIterator /\ (forall n, v_extract ch v n = Throw InvalidIterator) /\
  v_first_block ch v = Throw InvalidIterator /\
  (forall b n, v_find ch v b n = Throw InvalidIterator) /\ (forall b, v_starts_with ch v b = Throw InvalidIterator).
Proof. exact trimmed_view_throws. Qed.
Print Assumptions C07_trimmed_view_throws.

Example C07_trimmed_nonvacuous :
  let os := [OAppend [1;2;3;4]%Z; OBegin; OAt 2; OTrim 1] in
  view_at os (cl_chain (fst (run client_new os))) (fst (spec_run queue_new os))
    (mkView (nth_it (fst (run client_new os)) 0) None) 0 None /\ 0 < q_begin (fst (spec_run queue_new os)).
Proof.
  split; [constructor; try reflexivity|vm_compute; lia]. exists 0. eexists. vm_compute. repeat split.
Qed.

(** What is missing from C07. limit() of a view that was advanced beyond its own end: the size is computed with wrapping
    64-bit arithmetic, the "limited" view ends after the original view (and may contain data the original did not). *)
Theorem C07_limit_refuted :
  exists os v v1 v2, contract queue_new os = true /\
    let ch := cl_chain (fst (run client_new os)) in
    v_size ch v = 2 /\ v_advance ch v 3 = Ok v1 /\ v_size ch v1 = 0 /\ v_limit ch v1 2 = Ok v2 /\
    v_end_off v = Some 2 /\ v_end_off v2 = Some 5 /\ v_size ch v2 = 2.
Proof.
  pose (os := [OAppend [1;2;3;4;5;6;7]%Z; OBegin; OAt 2]).
  exists os, (mkView (nth_it (fst (run client_new os)) 0) (Some (nth_it (fst (run client_new os)) 1))).
  exists (mkView (mkIter 3 (Some 0)) (Some (mkIter 2 (Some 0)))), (mkView (mkIter 3 (Some 0)) (Some (mkIter 5 (Some 0)))).
  vm_compute. repeat split.
Qed.
Print Assumptions C07_limit_refuted.

(** sub() takes offsets relative to the parent's begin without looking at the parent's end. *)
Theorem C07_sub_escapes_parent_refuted :
  exists os v v', contract queue_new os = true /\
    let ch := cl_chain (fst (run client_new os)) in
    v_size ch v = 2 /\ v_sub ch v 1 4 = Ok v' /\ v_size ch v' = 3 /\ v_blocks ch v' <> Ok [] /\
    v_extract ch v' 3 = Ok ([2;3;4]%Z, mkView (mkIter 4 (Some 0)) (Some (mkIter 4 (Some 0)))).
Proof.
  pose (os := [OAppend [1;2;3;4;5;6;7]%Z; OBegin; OAt 2]).
  exists os, (mkView (nth_it (fst (run client_new os)) 0) (Some (nth_it (fst (run client_new os)) 1))).
  eexists. vm_compute. repeat split. discriminate.
Qed.

(** size() of a view whose beginning has been trimmed off still counts the trimmed bytes. *)
Theorem C07_size_counts_trimmed_refuted :
  exists os v, contract queue_new os = true /\
    let ch := cl_chain (fst (run client_new os)) in
    ch_size ch = Ok 2 /\ v_size ch v = 4 /\ v_is_complete ch v = Throw InvalidIterator.
Proof.
  pose (os := [OAppend [1;2;3;4]%Z; OBegin; OAt 2; OTrim 1]).
  exists os, (mkView (nth_it (fst (run client_new os)) 0) None). vm_compute. repeat split.
Qed.

(** C08 *)
Theorem C08_blocks_yield_content : forall os ch q v lo hi,
  view_at os ch q v lo hi -> q_begin q <= lo -> ordered lo hi ->
  (exists bs bl, no_gap (window q lo hi) bs /\ v_blocks ch v = Ok bl /\ flat_map bk_data bl = bs /\
     well_numbered lo true bl) \/
  (In CGap (window q lo hi) /\ v_blocks ch v = Throw MissingData).
Proof. exact blocks_spec. Qed.
Print Assumptions C08_blocks_yield_content.

Example C08_example : exists bl, v_blocks (cl_chain vdemo_s) vdemo_v = Ok bl /\ length bl = 3.
Proof. eexists. vm_compute. split; reflexivity. Qed.

(** C09 *)
Theorem C09_extract : forall os ch q v lo hi n,
  view_at os ch q v lo hi -> q_begin q <= lo -> ordered lo hi ->
  let w := window q lo hi in
  (length w < n -> v_extract ch v n = Throw WouldBlock) /\
  (n <= length w -> In CGap (firstn n w) -> v_extract ch v n = Throw MissingData) /\
  (forall bs, n <= length w -> firstn n w = map CByte bs ->
     exists v', v_advance ch v n = Ok v' /\ v_extract ch v n = Ok (bs, v')).
Proof. exact extract_spec. Qed.
Print Assumptions C09_extract.

(** C10: [st] is where the search starts (the view's beginning or an iterator inside the view). [found] positions are
    offsets. *)
Theorem C10_find_first_occurrence : forall os ch q v lo hi needle n st bs,
  view_at os ch q v lo hi -> q_begin q <= lo -> ordered lo hi ->
  start_ok os q n lo hi st -> no_gap (window q st hi) bs ->
  exists found k, v_find ch v needle n = Ok (found, st + k) /\
    (found = true -> occurs needle bs k) /\ (found = false -> partial_at needle bs k) /\
    (forall k', k' < k -> ~ occurs needle bs k' /\ ~ partial_at needle bs k').
Proof. exact find_declarative. Qed.
Print Assumptions C10_find_first_occurrence.

(** With gaps: the outcome is that of the left-to-right search on cells ([search_cells]), where comparing with a gap is
    MissingData; in particular it is a function of the content only. *)
Theorem C10_find_on_cells : forall os ch q v lo hi needle n st,
  view_at os ch q v lo hi -> q_begin q <= lo -> ordered lo hi -> start_ok os q n lo hi st ->
  v_find ch v needle n = search_cells (window q st hi) needle st.
Proof. exact find_spec. Qed.
Print Assumptions C10_find_on_cells.

(** find(Byte): the first position with that byte, end() if there is none; a gap before it is MissingData. *)
Theorem C10_find_byte : forall os ch q v lo hi b n st bs,
  view_at os ch q v lo hi -> q_begin q <= lo -> ordered lo hi ->
  start_ok os q n lo hi st -> no_gap (window q st hi) bs ->
  (v_find_byte ch v b n = Ok (match hi with Some h => h | None => q_end q end) /\ ~ In b bs) \/
  exists k, v_find_byte ch v b n = Ok (st + k) /\ nth_error bs k = Some b /\ ~ In b (firstn k bs).
Proof. exact find_byte_declarative. Qed.
Print Assumptions C10_find_byte.

Theorem C10_find_byte_on_cells : forall os ch q v lo hi b n st,
  view_at os ch q v lo hi -> q_begin q <= lo -> ordered lo hi -> start_ok os q n lo hi st ->
  v_find_byte ch v b n = byte_cells (window q st hi) b st (match hi with Some h => h | None => q_end q end).
Proof. exact find_byte_spec. Qed.
Print Assumptions C10_find_byte_on_cells.

(** find(View): searching for the content of another view, possibly of another stream, is searching for those bytes. *)
Theorem C10_find_view : forall os ch q v lo hi n st os2 ch2 q2 v2 lo2 hi2 needle,
  view_at os ch q v lo hi -> q_begin q <= lo -> ordered lo hi -> start_ok os q n lo hi st ->
  view_at os2 ch2 q2 v2 lo2 hi2 -> q_begin q2 <= lo2 -> ordered lo2 hi2 -> no_gap (window q2 lo2 hi2) needle ->
  v_find_view ch v ch2 v2 n = v_find ch v needle n.
Proof. exact find_view_spec. Qed.
Print Assumptions C10_find_view.

Example C10_byte_view_nonvacuous :
  v_find_byte (cl_chain vdemo_s) vdemo_v 13%Z None = Ok 3 /\ v_find_byte (cl_chain vdemo_s) vdemo_v 77%Z None = Ok 6 /\
  v_find_view (cl_chain vdemo_s) vdemo_v (cl_chain vdemo_s) vdemo_v None = Ok (true, 1).
Proof. vm_compute. repeat split. Qed.

Example C10_nonvacuous :
  start_ok vdemo vdemo_q (Some (nth_it vdemo_s 2)) 1 (Some 6) 5 /\
  v_find (cl_chain vdemo_s) vdemo_v [13;11]%Z None = Ok (true, 3) /\
  v_find (cl_chain vdemo_s) vdemo_v [12;14]%Z None = Ok (false, 5) /\
  v_find (cl_chain vdemo_s) vdemo_gap [15]%Z None = Throw MissingData.
Proof.
  split; [split; [exists 2; eexists; vm_compute; repeat split|cbn; lia]|vm_compute; repeat split].
Qed.

(** C11. Holds for start positions strictly inside the stream with needles that fit strictly before them. The data searched
    includes the byte at the start position itself. *)
Theorem C11_rfind_last_occurrence : forall os ch q v lo hi needle n p bs,
  view_at os ch q v lo hi -> q_begin q <= lo -> ordered lo hi ->
  holds (fst (run client_new os)) q n p -> lo <= p <= lo + length (window q lo hi) -> p < q_end q ->
  needle <> [] -> length needle <= p - lo -> no_gap (window q lo (Some (S p))) bs ->
  exists found j, v_rfind ch v needle (Some n) = Ok (found, Some (lo + j)) /\
    (found = true -> occurs needle bs j) /\ (found = false -> forall i, ~ occurs needle bs i) /\
    (found = true -> forall i, j < i -> ~ occurs needle bs i).
Proof. exact rfind_spec. Qed.
Print Assumptions C11_rfind_last_occurrence.

(** A needle longer than the distance to the view's beginning is not found; the empty needle is found at once.  The search
    from the end of a limited view is the search from its end iterator. *)
Theorem C11_rfind_without_reading : forall os ch q v lo hi needle n p,
  view_at os ch q v lo hi -> q_begin q <= lo -> ordered lo hi ->
  holds (fst (run client_new os)) q n p -> lo <= p <= lo + length (window q lo hi) ->
  (needle = [] -> v_rfind ch v needle (Some n) = Ok (true, Some p)) /\
  (needle <> [] -> p - lo < length needle -> v_rfind ch v needle (Some n) = Ok (false, None)).
Proof. exact rfind_short. Qed.
Print Assumptions C11_rfind_without_reading.

Theorem C11_rfind_default_start : forall ch v needle e, v_end v = Some e -> v_rfind ch v needle None = v_rfind ch v needle (Some e).
Proof. exact rfind_none. Qed.
Print Assumptions C11_rfind_default_start.

Example C11_nonvacuous : v_rfind (cl_chain vdemo_s) vdemo_v [11]%Z (Some (nth_it vdemo_s 2)) = Ok (true, Some 4).
Proof. reflexivity. Qed.

(** Searching backward from the end of the data reads behind it. *)
Theorem C11_rfind_from_end_refuted :
  exists os v, contract queue_new os = true /\
    let ch := cl_chain (fst (run client_new os)) in v_size ch v = 3 /\ v_rfind ch v [3]%Z None = UB.
Proof.
  pose (os := [OAppend [1;2;3]%Z; OBegin]).
  exists os, (mkView (nth_it (fst (run client_new os)) 0) None). vm_compute. repeat split.
Qed.

(** In a limited view the byte just behind the view is taken into account. *)
Theorem C11_rfind_outside_view_refuted :
  exists os v, contract queue_new os = true /\
    let ch := cl_chain (fst (run client_new os)) in
    v_extract ch v 2 = Ok ([1;2]%Z, mkView (mkIter 2 (Some 0)) (Some (nth_it (fst (run client_new os)) 1))) /\
    v_size ch v = 2 /\ v_rfind ch v [3]%Z None = Ok (true, Some 2).
Proof.
  pose (os := [OAppend [1;2;3]%Z; OBegin; OAt 2]).
  exists os, (mkView (nth_it (fst (run client_new os)) 0) (Some (nth_it (fst (run client_new os)) 1))).
  vm_compute. repeat split.
Qed.

(** A needle that ends at the start position but begins at the very beginning of the view is not found although the
    position itself is included in the search otherwise. *)
Theorem C11_rfind_exact_fit_refuted :
  exists os v n, contract queue_new os = true /\
    let ch := cl_chain (fst (run client_new os)) in
    v_rfind ch v [1;2;3]%Z (Some n) = Ok (false, None) /\ v_rfind ch v [2;3]%Z (Some n) = Ok (true, Some 1).
Proof.
  pose (os := [OAppend [1;2;3;4]%Z; OBegin; OAt 2]).
  exists os, (mkView (nth_it (fst (run client_new os)) 0) None), (nth_it (fst (run client_new os)) 1).
  vm_compute. repeat split.
Qed.

(** C12 *)
Theorem C12_view_eq_bytes : forall os ch q v lo hi bs bs',
  view_at os ch q v lo hi -> q_begin q <= lo -> ordered lo hi ->
  no_gap (window q lo hi) bs -> v_eq_bytes ch v bs' = Ok (if list_eq_dec Z.eq_dec bs bs' then true else false).
Proof. exact eq_bytes_gapless. Qed.
Print Assumptions C12_view_eq_bytes.

Theorem C12_view_eq_bytes_cells : forall os ch q v lo hi bs,
  view_at os ch q v lo hi -> q_begin q <= lo -> ordered lo hi ->
  v_eq_bytes ch v bs = if length (window q lo hi) =? length bs then eq_cells (window q lo hi) bs else Ok false.
Proof. exact eq_bytes_spec. Qed.
Print Assumptions C12_view_eq_bytes_cells.

Theorem C12_view_eq_view : forall os1 ch1 q1 v1 lo1 hi1 os2 ch2 q2 v2 lo2 hi2,
  view_at os1 ch1 q1 v1 lo1 hi1 -> q_begin q1 <= lo1 -> ordered lo1 hi1 ->
  view_at os2 ch2 q2 v2 lo2 hi2 -> q_begin q2 <= lo2 -> ordered lo2 hi2 ->
  exists r, v_eq_view ch1 v1 ch2 v2 = Ok r /\ (r = true <-> window q1 lo1 hi1 = window q2 lo2 hi2).
Proof. exact eq_view_spec. Qed.
Print Assumptions C12_view_eq_view.

Theorem C12_starts_with : forall os ch q v lo hi bs p,
  view_at os ch q v lo hi -> q_begin q <= lo -> ordered lo hi ->
  no_gap (window q lo hi) bs -> exists r, v_starts_with ch v p = Ok r /\ (r = true <-> prefix p bs).
Proof. exact starts_gapless. Qed.
Print Assumptions C12_starts_with.

Theorem C12_starts_with_cells : forall os ch q v lo hi p,
  view_at os ch q v lo hi -> q_begin q <= lo -> ordered lo hi ->
  v_starts_with ch v p = starts_cells (window q lo hi) p.
Proof. exact starts_spec. Qed.
Print Assumptions C12_starts_with_cells.

(** C13: from the position after the view's beginning (or the stream's head if the beginning was trimmed off) skip all
    gap positions. *)
Theorem C13_next_data : forall os ch q v lo hi,
  view_at os ch q v lo hi ->
  let o0 := if lo <? q_begin q then q_begin q else lo + 1 in
  (lo < q_begin q -> q_cells q <> []) ->
  exists v' k, v_next_data ch v = Ok v' /\ v_end v' = v_end v /\ v_off v' = o0 + k /\
    (forall j, j < k -> q_get q (o0 + j) = Some CGap) /\ q_get q (o0 + k) <> Some CGap.
Proof. exact next_data_decl. Qed.
Print Assumptions C13_next_data.

(** If the whole stream has been trimmed off, the view moves on by one. *)
Theorem C13_next_data_of_empty_stream : forall os ch q v lo hi,
  view_at os ch q v lo hi -> lo < q_begin q -> q_cells q = [] ->
  exists v', v_next_data ch v = Ok v' /\ v_end v' = v_end v /\ v_off v' = lo + 1.
Proof. exact next_data_empty. Qed.
Print Assumptions C13_next_data_of_empty_stream.

Example C13_nonvacuous :
  let v := mkView (nth_it vdemo_s 1) None in
  view_at vdemo (cl_chain vdemo_s) vdemo_q v 6 None /\
  rmap v_off (v_next_data (cl_chain vdemo_s) v) = Ok 9.
Proof.
  split; [constructor; try reflexivity|reflexivity]. exists 1. eexists. vm_compute. repeat split.
Qed.

(** Missing: if everything was trimmed the result is one after the old beginning, not the stream's head. *)
Theorem C13_trimmed_empty_refuted :
  exists os v v', contract queue_new os = true /\
    let ch := cl_chain (fst (run client_new os)) in
    ch_hoff ch = 5 /\ v_off v = 0 /\ v_next_data ch v = Ok v' /\ v_off v' = 1.
Proof.
  pose (os := [OAppend [1;2;3;4;5]%Z; OBegin; OAt 5; OTrim 1]).
  exists os, (mkView (nth_it (fst (run client_new os)) 0) None). eexists. vm_compute. repeat split.
Qed.
