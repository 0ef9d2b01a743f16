(** Properties C21, C22, C59: waiting for input, and parsing of bytes fields independent of how the input arrives. *)
From Verif Require Import Base StreamModel StreamSpec StreamProofs StreamProofs2 ViewModel ViewSpec
  ViewProofs ViewProofs2 ViewProofs3 ViewProofs4 WaitModel WaitSpec WaitProofs WaitProofs2 WaitProofs3 WaitProofs4 WaitProofs5 WaitProofs6.

(** C21. The parser waits through batches 0..k-1 of the schedule; at the first moment [k] at which [n] bytes are available or
    no more can come it continues, with true iff [n] bytes are available; if there is no such moment it stays suspended. *)
Theorem C21_wait_decides_at_first_moment : forall os ch q v lo hi n sched,
  view_at os ch q v lo hi -> q_begin q <= lo -> ordered lo hi ->
  (exists k, decided_at q sched lo hi n k /\
     wait_or_eod n v ch sched =
       Finished (Ok (n <=? length (window (after q sched k) lo hi))) (fold_left apply_batch (firstn k sched) ch) (skipn k sched)) \/
  (undecided q sched lo hi n /\ wait_or_eod n v ch sched = Suspended (fold_left apply_batch sched ch)).
Proof.
  intros os ch q v lo hi n sched V Hb Ho. rewrite wait_or_eod_wm.
  destruct (wm_first (Some n) v lo hi Ho sched os ch q V Hb) as [(k & Hk & Hj & Hs & _ & _ & E)|[Hj E]]; [left|right].
  - exists k. split; [|exact E]. split; [exact Hk|]. split.
    + intros j L. specialize (Hj j L). unfold stop_cond in Hj. apply orb_false_iff in Hj. destruct Hj as [A B].
      cbn [reached] in A. apply Nat.leb_gt in A. auto.
    + unfold stop_cond in Hs. apply orb_true_iff in Hs. destruct Hs as [A|A]; [left; apply Nat.leb_le; exact A|right; exact A].
  - split; [|exact E]. intros j L. specialize (Hj j L). unfold stop_cond in Hj. apply orb_false_iff in Hj. destruct Hj as [A B].
    cbn [reached] in A. apply Nat.leb_gt in A. auto.
Qed.
Print Assumptions C21_wait_decides_at_first_moment.

(** The moment is unique. *)
Theorem C21_moment_unique : forall q sched lo hi n k k',
  decided_at q sched lo hi n k -> decided_at q sched lo hi n k' -> k = k'.
Proof.
  intros q sched lo hi n k k' (A1 & B1 & C1) (A2 & B2 & C2).
  destruct (Nat.lt_trichotomy k k') as [L|[E|L]]; [|exact E|].
  - destruct (B2 k L) as [X Y]. destruct C1; [lia|congruence].
  - destruct (B1 k' L) as [X Y]. destruct C2; [lia|congruence].
Qed.
Print Assumptions C21_moment_unique.

(** waitForInput(n): as above, with a parse error instead of false. *)
Theorem C21_wait_or_parse_error : forall os ch q v lo hi n sched,
  view_at os ch q v lo hi -> q_begin q <= lo -> ordered lo hi ->
  (exists k, decided_at q sched lo hi n k /\
     wait_for_input n v ch sched =
       Finished (if n <=? length (window (after q sched k) lo hi) then Ok tt else Throw ParseError)
         (fold_left apply_batch (firstn k sched) ch) (skipn k sched)) \/
  (undecided q sched lo hi n /\ wait_for_input n v ch sched = Suspended (fold_left apply_batch sched ch)).
Proof.
  intros os ch q v lo hi n sched V Hb Ho. rewrite wait_for_input_wm, <- wait_or_eod_wm.
  destruct (C21_wait_decides_at_first_moment os ch q v lo hi n sched V Hb Ho) as [(k & H & ->)|[H ->]]; [left|right; auto].
  exists k. split; [exact H|]. cbn [obind]. destruct (n <=? _); reflexivity.
Qed.
Print Assumptions C21_wait_or_parse_error.

(** atEod(): waits for one byte or the end; true iff there is no byte then. Views that start inside the stream. *)
Theorem C21_at_eod : forall os ch q v lo hi sched,
  parsing_view os ch q v lo hi ->
  (exists k, decided_at q sched lo hi 1 k /\
     at_eod v ch sched =
       Finished (Ok (match window (after q sched k) lo hi with [] => true | _ => false end))
         (fold_left apply_batch (firstn k sched) ch) (skipn k sched)) \/
  (undecided q sched lo hi 1 /\ at_eod v ch sched = Suspended (fold_left apply_batch sched ch)).
Proof.
  intros os ch q v lo hi sched P. pose proof (pv_view _ _ _ _ _ _ P) as V.
  pose proof (pv_inside _ _ _ _ _ _ P) as Hb. pose proof (pv_ordered _ _ _ _ _ _ P) as Ho.
  assert (E : at_eod v ch sched = obind (wait_or_eod 1 v ch sched) (fun ok ch sched => Finished (Ok (negb ok)) ch sched)).
  { rewrite wait_or_eod_wm, wm_eq. unfold at_eod. cbn [reached].
    destruct (Nat.ltb_spec 0 (v_size ch v)) as [L|L]; destruct (Nat.leb_spec 1 (v_size ch v)); try lia; [reflexivity|].
    destruct (v_is_complete ch v) as [[|]| |] eqn:C; try reflexivity.
    rewrite (wait_change_wm (X := []) v ch sched (window (at_end q sched) lo hi) (over (at_end q sched) hi) lo hi) by (exists os, q; auto).
    replace (v_size ch v) with 0 by lia. rewrite wm_eq. cbn [reached]. destruct (Nat.leb_spec 1 (v_size ch v)); [lia|]. rewrite C. reflexivity. }
  rewrite E. destruct (C21_wait_decides_at_first_moment os ch q v lo hi 1 sched V Hb Ho) as [(k & H & ->)|[H ->]]; [left|right; auto].
  exists k. split; [exact H|]. cbn [obind]. destruct (window (after q sched k) lo hi); reflexivity.
Qed.
Print Assumptions C21_at_eod.

(** waitForEod(): returns exactly when nothing more can come, with all there will ever be. *)
Theorem C21_wait_for_eod : forall os ch q v lo hi sched,
  parsing_view os ch q v lo hi ->
  if over (at_end q sched) hi
  then exists b ch' rest, wait_for_eod v ch sched = Finished (Ok b) ch' rest /\ v_size ch' v = length (window (at_end q sched) lo hi)
  else exists ch', wait_for_eod v ch sched = Suspended ch'.
Proof.
  intros os ch q v lo hi sched P.
  assert (I : pin (X := []) v ch sched (window (at_end q sched) lo hi) (over (at_end q sched) hi) lo hi) by (exists os, q; auto).
  destruct (eod_wait _ _ _ _ _ _ _ I) as [(b & ch' & rest & E & _ & Sz & ->)|(ch' & E & ->)]; eauto.
Qed.
Print Assumptions C21_wait_for_eod.

(** Example: a stream holding 2 bytes, view over [1, 6); the host appends one byte, then a gap of 3 and one byte, then ends. *)
Definition wdemo : list op := [OAppend [1;2]%Z; OAt 1; OAt 6].
Definition wdemo_s := fst (run client_new wdemo).
Definition wdemo_q := fst (spec_run queue_new wdemo).
Definition wdemo_v := mkView (nth 0 (cl_its wdemo_s) (mkIter 0 None)) (Some (nth 1 (cl_its wdemo_s) (mkIter 0 None))).
Definition wdemo_sched : list batch := [[PAppend [3]%Z]; []; [PGapOf 3; PAppend [9]%Z]; [PFreeze]].
Example wait_nonvacuous : parsing_view wdemo (cl_chain wdemo_s) wdemo_q wdemo_v 1 (Some 6) /\
  decided_at wdemo_q wdemo_sched 1 (Some 6) 2 1 /\ decided_at wdemo_q wdemo_sched 1 (Some 6) 9 3 /\
  undecided wdemo_q [[PAppend [3]%Z]] 1 (Some 6) 3 /\
  over (at_end wdemo_q wdemo_sched) (Some 6) = true.
Proof.
  split.
  { constructor; try reflexivity; try (cbn; lia).
    - exists 0. eexists. vm_compute. repeat split.
    - exists 1. eexists. vm_compute. repeat split. }
  split; [|split; [|split]].
  - split; [cbn; lia|]. split; [|left; cbn; lia]. intros [|j] L; [vm_compute; split; [lia|reflexivity]|lia].
  - split; [cbn; lia|]. split; [|right; reflexivity].
    intros [|[|[|j]]] L; [| | |lia]; (split; [cbn; lia|reflexivity]).
  - intros [|[|j]] L; [| |cbn in L; lia]; (split; [cbn; lia|reflexivity]).
  - reflexivity.
Qed.

(** C22. For every parser made of bytes, integer and address fields and of groups with &size or &max-size, nested to any
    depth, whose continuation may depend on values and end-of-data tests, every stream, every view and every schedule, the
    values and the final status are the function [spec_prog] of all the input the schedule delivers; trimming on or off makes
    no difference. [prog_ok]: &until needs input without gaps, and &size with &eod a view without limit. *)
Theorem C22_result_is_function_of_input : forall trim p os ch q v lo hi sched,
  parsing_view os ch q v lo hi ->
  let D := window (at_end q sched) lo hi in
  prog_ok (match as_bytes D with Some _ => true | None => false end) (match hi with Some _ => true | None => false end) p ->
  run_prog trim p v ch sched = spec_prog p lo D (over (at_end q sched) hi).
Proof.
  intros trim p os ch q v lo hi sched P D Hp. unfold run_prog. cbv zeta.
  eapply pmeets_status. refine (prog_meets trim p [] hi v ch sched D _ lo _ _ _ Hp).
  - exists os, q. split; [exact P|]. split; [reflexivity|]. split; [reflexivity|constructor].
  - intros Hg. destruct (as_bytes D) as [bs|]; [eauto|discriminate Hg].
Qed.
Print Assumptions C22_result_is_function_of_input.

(** In particular for a stream that starts empty: any two ways of cutting the same bytes into pieces and of distributing
    the pieces over resumptions give the same result, for every parser that does not use &size with &eod inside &size. *)
Definition chunks_of (pieces : list (list bytes)) : list batch := map (map PAppend) pieces ++ [[PFreeze]].
Definition fresh_view : view := mkView (mkIter 0 None) None.

Lemma produced_pieces ps : forall tl, fst (produced false (concat (map (map PAppend) ps) ++ tl)) =
  map CByte (concat (concat ps)) ++ fst (produced false tl) /\
  snd (produced false (concat (map (map PAppend) ps) ++ tl)) = snd (produced false tl).
Proof.
  intros tl. induction ps as [|b ps IH]; [auto|]. cbn [map concat].
  rewrite <- app_assoc. generalize dependent (concat (map (map PAppend) ps) ++ tl). intros X [I1 I2].
  induction b as [|bs b IHb]; [cbn [map concat app] in *; auto|].
  cbn [map app produced fst snd concat]. destruct IHb as [J1 J2]. rewrite J1, J2.
  split; [rewrite map_app, <- app_assoc; reflexivity|reflexivity].
Qed.

Theorem C22_splitting_irrelevant : forall trim trim' p pieces pieces', prog_ok true false p ->
  concat (concat pieces) = concat (concat pieces') ->
  run_prog trim p fresh_view chain_new (chunks_of pieces) = run_prog trim' p fresh_view chain_new (chunks_of pieces').
Proof.
  intros trim trim' p ps ps' Hok E.
  assert (P : parsing_view [OBegin] chain_new (fst (spec_run queue_new [OBegin])) fresh_view 0 None).
  { constructor; try reflexivity; try (cbn; lia). exists 0. eexists. vm_compute. repeat split. }
  assert (K : forall l, window (at_end (fst (spec_run queue_new [OBegin])) (chunks_of l)) 0 None = map CByte (concat (concat l)) /\
                        over (at_end (fst (spec_run queue_new [OBegin])) (chunks_of l)) None = true).
  { intros l. pose proof (at_end_rel (fst (spec_run queue_new [OBegin])) (chunks_of l) eq_refl) as R.
    assert (Ec : concat (chunks_of l) = concat (map (map PAppend) l) ++ [PFreeze]) by (unfold chunks_of; rewrite concat_app; reflexivity).
    rewrite Ec in R. change (q_frozen (fst (spec_run queue_new [OBegin]))) with false in R.
    destruct (produced_pieces l [PFreeze]) as [A B]. rewrite A, B in R. cbn [produced fst snd app] in R. rewrite app_nil_r in R.
    destruct R as [r_b r_c r_f _ _]. unfold window, over, q_end. rewrite r_b, r_c, r_f.
    cbn [spec_run spec_step q_new_handle fst q_dead queue_new add_handle q_begin q_cells app Nat.sub skipn].
    split; [|reflexivity]. apply firstn_all2. cbn. lia. }
  assert (R : forall t l, run_prog t p fresh_view chain_new (chunks_of l) = spec_prog p 0 (map CByte (concat (concat l))) true).
  { intros t l. destruct (K l) as [A B].
    rewrite (C22_result_is_function_of_input t p [OBegin] _ _ _ 0 None (chunks_of l) P); rewrite A, ?B; [reflexivity|].
    rewrite as_bytes_map. exact Hok. }
  rewrite (R trim ps), (R trim' ps'). f_equal. f_equal. exact E.
Qed.
Print Assumptions C22_splitting_irrelevant.

(** Example: length-prefixed record: one byte n, then n bytes, then the literal, then everything up to the delimiter, then a
    test for the end of data and the rest. *)
Definition pdemo : prog :=
  PField (FSize 1 false) (fun b => PField (FSize (match b with [n] => Z.to_nat n | _ => 0 end) false) (fun _ =>
  PField (FLiteral [77]%Z) (fun _ => PField (FUntil false [13;10]%Z) (fun _ => PAtEod (fun e =>
  if e : bool then PDone else PField FEod (fun _ => PDone)))))).
Example C22_example :
  run_prog true pdemo fresh_view chain_new (chunks_of [[[2;5]]; [[6];[77;13]]; [[13]]; []; [[10]; [8;9]]])%Z
    = ([[2];[5;6];[77];[13];[8;9]]%Z, Success 9) /\
  run_prog false pdemo fresh_view chain_new (chunks_of [[[2;5;6;77;13;13;10;8;9]]])%Z
    = ([[2];[5;6];[77];[13];[8;9]]%Z, Success 9).
Proof. split; reflexivity. Qed.

(** Groups: a two-byte header, then a unit with &size (from the header) holding a line and the rest, then a unit with
    &max-size=3 holding a line, then one raw byte. *)
Definition pdemo2 : prog :=
  PField (FRaw 2) (fun h => PSized (match h with [_; n] => Z.to_nat n | _ => 0 end)
    (PField (FUntil false [10]%Z) (fun _ => PField FEod (fun _ => PDone)))
    (fun _ => PMaxSized 3 (PField (FUntil false [10]%Z) (fun _ => PDone)) (fun _ => PField (FRaw 1) (fun _ => PDone)))).
Example C22_example_groups :
  prog_ok true false pdemo2 /\
  run_prog true pdemo2 fresh_view chain_new (chunks_of [[[0;5;97]]; [[10];[98;99]]; [[100]]; []; [[101; 10]; [102]]])%Z
    = ([[0;5];[97];[98;99;100];[101];[102]]%Z, Success 10) /\
  run_prog false pdemo2 fresh_view chain_new (chunks_of [[[0;5;97;10;98;99;100;101;10;102]]])%Z
    = ([[0;5];[97];[98;99;100];[101];[102]]%Z, Success 10) /\
  run_prog true pdemo2 fresh_view chain_new (chunks_of [[[0;5;97;10;98;99]]; [[100;101;102;103]]; [[10;104]]])%Z
    = ([[0;5];[97];[98;99;100];[101;102;103]]%Z, Failed ParseError).
Proof.
  split; [|split; [|split]]; try reflexivity. cbn. repeat split; auto.
Qed.

(** The two restrictions are needed. (1) &size=4 &eod on a view limited to 2 bytes reads behind the limit, and the value
    depends on how much happens to have arrived. *)
Theorem C22_size_eod_limited_refuted :
  exists os v, contract queue_new os = true /\
    let ch := cl_chain (fst (run client_new os)) in
    v_size ch v = 2 /\ v_end_off v = Some 2 /\
    extract_bytes 4 true v ch [] = Finished (Ok [1;2;3;4]%Z) ch [] /\
    exists os' v', contract queue_new os' = true /\
      let ch' := cl_chain (fst (run client_new os')) in
      v_size ch' v' = 2 /\ v_end_off v' = Some 2 /\
      extract_bytes 4 true v' ch' [[PAppend [3;4]%Z]] = Finished (Ok [1;2]%Z) ch' [[PAppend [3;4]%Z]].
Proof.
  pose (os := [OAppend [1;2;3;4]%Z; OBegin; OAt 2]). exists os.
  exists (mkView (nth 0 (cl_its (fst (run client_new os))) (mkIter 0 None)) (Some (nth 1 (cl_its (fst (run client_new os))) (mkIter 0 None)))).
  split; [reflexivity|]. split; [reflexivity|]. split; [reflexivity|]. split; [reflexivity|].
  pose (os' := [OAppend [1;2]%Z; OBegin; OAt 2]). exists os'.
  exists (mkView (nth 0 (cl_its (fst (run client_new os'))) (mkIter 0 None)) (Some (nth 1 (cl_its (fst (run client_new os'))) (mkIter 0 None)))).
  repeat split.
Qed.

(** The same within a whole parser: bytes &size=4 &eod inside a unit with &size=2. *)
Theorem C22_size_eod_in_size_refuted :
  let p := PSized 2 (PField (FSize 4 true) (fun _ => PDone)) (fun _ => PDone) in
  run_prog false p fresh_view chain_new [[PAppend [1;2;3;4]%Z]] = ([[1;2;3;4]%Z], Success 2) /\
  run_prog false p fresh_view chain_new [[PAppend [1;2]%Z]; [PAppend [3;4]%Z]] = ([[1;2]%Z], Success 2).
Proof. split; reflexivity. Qed.

(** (2) With a gap in the input, &until fails or keeps waiting depending on how the same input is cut. *)
Theorem C59_until_gap_refuted :
  let p := PField (FUntil false [120;121;122]%Z) (fun _ => PDone) in
  run_prog false p fresh_view chain_new [[PAppend [97;98;120]%Z; PGapOf 1]] = ([], Failed MissingData) /\
  run_prog false p fresh_view chain_new [[PAppend [97;98;120]%Z]; [PGapOf 1]] = ([], Waiting).
Proof. split; reflexivity. Qed.

(** C59. bytes &until=x: for every arrival of gapless input the value is what precedes the first occurrence of [x] (for
    &until-including: with it), parsing continues behind it; without occurrence it is a parse error once no more can come,
    and waiting otherwise. *)
Theorem C59_until_first_occurrence : forall trim including x os ch q v lo hi sched bs,
  parsing_view os ch q v lo hi -> window (at_end q sched) lo hi = map CByte bs ->
  (forall k, occurs x bs k -> (forall k', k' < k -> ~ occurs x bs k') ->
     run_prog trim (PField (FUntil including x) (fun _ => PDone)) v ch sched
       = ([firstn (if including then k + length x else k) bs], Success (lo + (k + length x)))) /\
  ((forall k, ~ occurs x bs k) ->
     run_prog trim (PField (FUntil including x) (fun _ => PDone)) v ch sched
       = ([], if over (at_end q sched) hi then Failed ParseError else Waiting)).
Proof.
  intros trim including x os ch q v lo hi sched bs P E.
  assert (R : run_prog trim (PField (FUntil including x) (fun _ => PDone)) v ch sched =
              spec_prog (PField (FUntil including x) (fun _ => PDone)) lo (map CByte bs) (over (at_end q sched) hi)).
  { rewrite (C22_result_is_function_of_input trim _ os ch q v lo hi sched P); rewrite E; [reflexivity|].
    rewrite as_bytes_map. cbn. auto. }
  rewrite R. cbn [spec_prog spec_field]. rewrite as_bytes_map. split.
  - intros k O F. rewrite (first_occ_some x bs k O F). reflexivity.
  - intros F. destruct (first_occ x bs) as [k|] eqn:Fo; [|destruct (over _ _); reflexivity].
    exfalso. clear -F Fo. revert k Fo. induction bs as [|b bs IH]; intros k; cbn [first_occ].
    + destruct (prefixb x []) eqn:B; [|discriminate]. intros _. apply (F 0), occurs_0, prefixb_spec, B.
    + destruct (prefixb x (b :: bs)) eqn:B; [intros _; apply (F 0), occurs_0, prefixb_spec, B|].
      destruct (first_occ x bs) as [j|]; [|discriminate]. intros _. apply (IH ltac:(intros k' H; apply (F (S k')), occurs_S, H) j eq_refl).
Qed.
Print Assumptions C59_until_first_occurrence.

Example C59_nonvacuous :
  let os := [OAppend [97;98]%Z; OBegin] in let sched := [[PAppend [99;13]%Z]; [PAppend [10;120]%Z]] in
  parsing_view os (cl_chain (fst (run client_new os))) (fst (spec_run queue_new os))
    (mkView (nth 0 (cl_its (fst (run client_new os))) (mkIter 7 None)) None) 0 None /\
  window (at_end (fst (spec_run queue_new os)) sched) 0 None = map CByte [97;98;99;13;10;120]%Z /\
  occurs [13;10]%Z [97;98;99;13;10;120]%Z 3.
Proof.
  split; [|split; [reflexivity|exists [97;98;99]%Z, [120]%Z; auto]].
  constructor; try reflexivity; try (cbn; lia). exists 0. eexists. vm_compute. repeat split.
Qed.

(** bytes &eod, chunked or not, and skipping: the value is everything up to the end, whatever the pieces. *)
Theorem C59_to_eod : forall trim os ch q v lo hi sched bs,
  parsing_view os ch q v lo hi -> window (at_end q sched) lo hi = map CByte bs ->
  let out r := if over (at_end q sched) hi then ([r], Success (lo + length bs)) else ([], Waiting) in
  run_prog trim (PField FEod (fun _ => PDone)) v ch sched = out bs /\
  run_prog trim (PField FEodChunked (fun _ => PDone)) v ch sched = out bs /\
  run_prog trim (PField FSkipEod (fun _ => PDone)) v ch sched = out [].
Proof.
  intros trim os ch q v lo hi sched bs P E out.
  assert (R : forall f, field_ok true (match hi with Some _ => true | None => false end) f ->
              run_prog trim (PField f (fun _ => PDone)) v ch sched =
              spec_prog (PField f (fun _ => PDone)) lo (map CByte bs) (over (at_end q sched) hi)).
  { intros f Hf. rewrite (C22_result_is_function_of_input trim _ os ch q v lo hi sched P); rewrite E; [reflexivity|].
    rewrite as_bytes_map. cbn. auto. }
  rewrite !R by exact I. cbn [spec_prog spec_field]. unfold value_of. rewrite as_bytes_map, map_length. unfold out.
  destruct (over (at_end q sched) hi); auto.
Qed.
Print Assumptions C59_to_eod.

(** C68. A body with &size=n: once [n] bytes are going to be there, its values and its fate depend on nothing but these
    bytes, not on the stream, what follows, an enclosing limit or the schedule. *)
Definition limited (hi : option nat) : bool := match hi with Some _ => true | None => false end.
Definition gapless (D : list cell) : bool := match as_bytes D with Some _ => true | None => false end.
Theorem C68_size_body_sees_only_its_bytes : forall trim trim' n body os ch q v lo hi sched os' ch' q' v' hi' sched',
  parsing_view os ch q v lo hi -> parsing_view os' ch' q' v' lo hi' ->
  let D := window (at_end q sched) lo hi in let D' := window (at_end q' sched') lo hi' in
  n <= length D -> n <= length D' -> firstn n D = firstn n D' ->
  prog_ok (gapless D) true body -> prog_ok (gapless D') true body ->
  run_prog trim (PSized n body (fun _ => PDone)) v ch sched = run_prog trim' (PSized n body (fun _ => PDone)) v' ch' sched'.
Proof.
  intros trim trim' n body os ch q v lo hi sched os' ch' q' v' hi' sched' P P' D D' L L' E O O'.
  rewrite (C22_result_is_function_of_input trim (PSized n body (fun _ => PDone)) os ch q v lo hi sched P) by (split; [exact O|intros; exact I]).
  rewrite (C22_result_is_function_of_input trim' (PSized n body (fun _ => PDone)) os' ch' q' v' lo hi' sched' P') by (split; [exact O'|intros; exact I]).
  fold D D'. cbn [spec_prog]. destruct (2 ^ 64 <=? _)%Z; [reflexivity|].
  destruct (Nat.leb_spec n (length D)) as [_|]; [|lia]. destruct (Nat.leb_spec n (length D')) as [_|]; [|lia].
  rewrite !orb_true_r, E. reflexivity.
Qed.
Print Assumptions C68_size_body_sees_only_its_bytes.

(** When the body is done, parsing goes on exactly [n] bytes behind its beginning, or there is an error; it never succeeds
    with fewer than [n] bytes of input. *)
Theorem C68_continues_behind_size : forall trim n body k os ch q v lo hi sched,
  parsing_view os ch q v lo hi -> let D := window (at_end q sched) lo hi in
  prog_ok (gapless D) (limited hi) (PSized n body k) ->
  match run_prog trim (PSized n body (fun _ => PDone)) v ch sched with
  | (vs, Success o) => o = lo + n /\ n <= length D /\
      run_prog trim (PSized n body k) v ch sched =
        (vs ++ fst (spec_prog (k vs) (lo + n) (skipn n D) (over (at_end q sched) hi)),
         snd (spec_prog (k vs) (lo + n) (skipn n D) (over (at_end q sched) hi)))
  | (vs, Failed e) => run_prog trim (PSized n body k) v ch sched = (vs, Failed e)
  | (vs, Waiting) => run_prog trim (PSized n body k) v ch sched = (vs, Waiting)
  | (_, Undefined) => False
  end.
Proof.
  intros trim n body k os ch q v lo hi sched P D O. pose proof O as [Ob Ok].
  rewrite (C22_result_is_function_of_input trim (PSized n body k) os ch q v lo hi sched P O).
  rewrite (C22_result_is_function_of_input trim (PSized n body (fun _ => PDone)) os ch q v lo hi sched P); [|split; [exact Ob|intros; exact I]].
  fold D. cbn [spec_prog]. destruct (2 ^ 64 <=? _)%Z; [reflexivity|].
  set (c := over (at_end q sched) hi || (n <=? length D)).
  assert (NU : forall p lo D c, snd (spec_prog p lo D c) <> Undefined).
  { clear. induction p as [|f k IH|k IH|n body IHb k IH|n body IHb k IH]; intros lo D c; cbn [spec_prog].
    - discriminate.
    - destruct (spec_field f D c); cbn [snd]; try discriminate. apply IH.
    - destruct D; [destruct c; [|discriminate]|]; apply IH.
    - destruct (_ <=? _)%Z; [discriminate|]. cbv zeta. destruct (snd (spec_prog body _ _ _)) eqn:E; cbn [snd]; try discriminate; [destruct (_ <? _); [discriminate|apply IH]|].
      destruct (IHb _ _ _ E).
    - destruct (_ <=? _)%Z; [discriminate|]. cbv zeta. destruct (snd (spec_prog body _ _ _)) eqn:E; cbn [snd]; try discriminate; [destruct (_ <? _); [discriminate|apply IH]|].
      destruct (IHb _ _ _ E). }
  cbv zeta. destruct (snd (spec_prog body lo (firstn n D) c)) as [o|e| |] eqn:E; try reflexivity.
  - destruct (Nat.ltb_spec o (lo + n)) as [Lt|Ge]; [reflexivity|]. cbn [fst snd]. rewrite !app_nil_r. split; [reflexivity|].
    apply (spec_bound body _ _ _ _ _ Ob) in E. rewrite firstn_length in E. split; [lia|reflexivity].
  - destruct (NU _ _ _ _ E).
Qed.
Print Assumptions C68_continues_behind_size.

(** &max-size=n: parsing goes on where the body stopped, at most [n] bytes behind its beginning. *)
Theorem C68_max_size : forall trim n body k os ch q v lo hi sched,
  parsing_view os ch q v lo hi -> let D := window (at_end q sched) lo hi in
  prog_ok (gapless D) (limited hi) (PMaxSized n body k) ->
  forall vs o, run_prog trim (PMaxSized n body (fun _ => PDone)) v ch sched = (vs, Success o) ->
    lo <= o <= lo + n /\ o <= lo + length D /\
    run_prog trim (PMaxSized n body k) v ch sched =
        (vs ++ fst (spec_prog (k vs) o (skipn (o - lo) D) (over (at_end q sched) hi)),
         snd (spec_prog (k vs) o (skipn (o - lo) D) (over (at_end q sched) hi))).
Proof.
  intros trim n body k os ch q v lo hi sched P D O vs o. pose proof O as [Ob Ok].
  rewrite (C22_result_is_function_of_input trim (PMaxSized n body k) os ch q v lo hi sched P O).
  rewrite (C22_result_is_function_of_input trim (PMaxSized n body (fun _ => PDone)) os ch q v lo hi sched P); [|split; [exact Ob|intros; exact I]].
  fold D. cbn [spec_prog]. destruct (2 ^ 64 <=? _)%Z; [discriminate|]. cbv zeta.
  set (c := over (at_end q sched) hi || (n + 1 <=? length D)).
  destruct (snd (spec_prog body lo (firstn (n + 1) D) c)) as [o'|e| |] eqn:E; try discriminate.
  destruct (Nat.ltb_spec (lo + n) o') as [Lt|Ge]; [discriminate|]. cbn [fst snd]. rewrite !app_nil_r. intros [= <- <-].
  apply (spec_bound body _ _ _ _ _ Ob) in E. rewrite firstn_length in E. split; [lia|]. split; [lia|reflexivity].
Qed.
Print Assumptions C68_max_size.

(** If the input ends before, or something is left over, it is a parse error in the end. *)
Theorem C68_size_not_met : forall trim n body k os ch q v lo hi sched vs o,
  parsing_view os ch q v lo hi -> let D := window (at_end q sched) lo hi in
  prog_ok (gapless D) (limited hi) (PSized n body k) -> (Z.of_nat lo + Z.of_nat n < 2 ^ 64)%Z ->
  spec_prog body lo (firstn n D) (over (at_end q sched) hi || (n <=? length D)) = (vs, Success o) -> o < lo + n ->
  run_prog trim (PSized n body k) v ch sched = (vs, Failed ParseError).
Proof.
  intros trim n body k os ch q v lo hi sched vs o P D O Hn E L.
  rewrite (C22_result_is_function_of_input trim (PSized n body k) os ch q v lo hi sched P O). fold D. cbn [spec_prog].
  destruct (Z.leb_spec (2 ^ 64) (Z.of_nat lo + Z.of_nat n)); [lia|]. rewrite E. cbn [fst snd].
  destruct (Nat.ltb_spec o (lo + n)); [reflexivity|lia].
Qed.
Print Assumptions C68_size_not_met.

(** Example: view over [1, 6) of the stream of [wait_nonvacuous]; a unit with &size=3 that reads a byte and the rest. *)
Example C68_nonvacuous :
  let body := PField (FRaw 1) (fun _ => PField FEod (fun _ => PDone)) in
  let sched := [[PAppend [3]%Z]; [PAppend [4]%Z]; [PAppend [5;6;7]%Z]] in
  let D := window (at_end wdemo_q sched) 1 (Some 6) in
  D = map CByte [2;3;4;5;6]%Z /\ prog_ok (gapless D) true body /\
  run_prog true (PSized 3 body (fun _ => PField (FRaw 2) (fun _ => PDone))) wdemo_v (cl_chain wdemo_s) sched
    = ([[2]; [3;4]; [5;6]]%Z, Success 6) /\
  run_prog true (PSized 3 (PField (FRaw 2) (fun _ => PDone)) (fun _ => PDone)) wdemo_v (cl_chain wdemo_s) sched = ([[2;3]]%Z, Failed ParseError) /\
  run_prog true (PSized 9 body (fun _ => PDone)) wdemo_v (cl_chain wdemo_s) sched = ([[2]; [3;4;5;6]]%Z, Failed ParseError) /\
  run_prog true (PMaxSized 3 (PField (FRaw 2) (fun _ => PDone)) (fun _ => PField (FRaw 1) (fun _ => PDone))) wdemo_v (cl_chain wdemo_s) sched
    = ([[2;3]; [4]]%Z, Success 4).
Proof. repeat split; reflexivity. Qed.
