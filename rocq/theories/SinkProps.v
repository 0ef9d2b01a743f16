(** Properties of sinks: C14-C20. *)
From Coq Require Import Permutation.
From Verif Require Import Base BytesModel SinkModel SinkSpec SinkProofs SinkProofs2 SinkProofs3 SinkProofs4 SinkProofs5 SinkProofs6 SinkProofs7 SinkProofs8 SinkProofs9.
Open Scope Z_scope.

(** A unit that consumes everything it is given, one that completes after three bytes, one that fails after three. *)
Definition reader : sunit := mkUnit (fun _ => Waiting) [] false false.
Definition three : sunit := mkUnit (fun ps => if blen (concat ps) <? 3 then Waiting else Completed) [] false false.
Definition picky : sunit := mkUnit (fun ps => if blen (concat ps) <? 3 then Waiting else Failing) [] false false.

(** ** C14 *)
(** Data written in order, each piece without or with the sequence number of the end of the previous one (the initial sequence
    number [i] is arbitrary, so that sequence numbers may wrap): the units get the concatenation. *)
Theorem C14_in_order : forall units auto i gs, blen (concat (map snd gs)) < 2 ^ 64 ->
  match sruns (in_order i 0 gs) (fresh units auto i) with
  | SOk _ s => delivered (k_log s) = concat (map snd gs) /\ sink_size s = blen (concat (map snd gs)) /\
               sequence_number s = u64 (i + blen (concat (map snd gs))) /\ got units s
  | SThrow e s => e = ParseError /\ exists u, In u (k_units s) /\ u_done u = true /\ u_skip u = false
  | SCrash => False
  end.
Proof.
  intros units auto i gs L. pose proof (in_order_run auto i gs [] (fresh units auto i) (wr_fresh auto i units)) as H.
  cbn [fresh k_log delivered flat_map app] in H. change (blen []) with 0 in H.
  specialize (H (fun _ _ => eq_refl) ltac:(lia)).
  destruct (sruns (in_order i 0 gs) (fresh units auto i)) as [[] s|e s|] eqn:E; unfold in_order_result in H.
  - pose proof (blen_nn (concat (map snd gs))). pose proof (in_order_data_op i gs 0) as DO.
    destruct H as (H1 & H2 & H3). split; [exact H1|]. split; [rewrite H2; apply u64_id; lia|]. split; [exact H3|]. eapply sruns_got; [exact DO|exact E].
  - exact H.
  - exact H.
Qed.
(** Units whose parsers do not complete: no write fails. *)
Theorem C14_in_order_no_failure : forall units auto i gs, blen (concat (map snd gs)) < 2 ^ 64 ->
  (forall u, In u units -> u_done u = false /\ forall ps, u_beh u ps <> Completed) ->
  exists s, sruns (in_order i 0 gs) (fresh units auto i) = SOk tt s /\ delivered (k_log s) = concat (map snd gs) /\ got units s.
Proof.
  intros units auto i gs L EN. pose proof (C14_in_order units auto i gs L) as H.
  destruct (sruns (in_order i 0 gs) (fresh units auto i)) as [[] s|e s|] eqn:E; [|exfalso|contradiction].
  - exists s. intuition.
  - destruct H as (_ & u & U1 & U2 & U3). eapply endless_run; [apply in_order_data_op| |exact E|exact U1|exact U2|exact U3].
    cbn [fresh k_units]. apply Forall_forall. intros v VI. apply EN. exact VI.
Qed.
(** Three writes around the wrap of the sequence space; one unit fails on the way and gets no more. *)
Example C14_example : exists s, sruns (in_order (2 ^ 64 - 4) 0 [(true, [1; 2]); (false, [3; 4; 5]); (true, []); (true, [6])]) (fresh [reader; picky] true (2 ^ 64 - 4)) = SOk tt s
  /\ map u_in (k_units s) = [[[1; 2]; [3; 4; 5]; [6]]; [[1; 2]; [3; 4; 5]]] /\ map u_skip (k_units s) = [false; true] /\ sequence_number s = 2 /\ sink_size s = 6.
Proof. eexists. split; [vm_compute; reflexivity|]. repeat split. Qed.
(** Writing to a unit that has completed throws a ParseError. *)
Example C14_completed : exists s, sruns (in_order 7 0 [(true, [1; 2]); (false, [3; 4; 5]); (true, [6])]) (fresh [reader; three] true 7) = SThrow ParseError s.
Proof. eexists. vm_compute. reflexivity. Qed.

(** ** C15 *)
(** Segments that do not overlap, in any order: what is delivered at any time is everything up to the first missing position.
    ([segs] is an arbitrary sequence of writes, so this covers every point in time.) *)
Theorem C15_any_order : forall units auto i segs, disjoint segs ->
  (forall a d, In (a, d) segs -> 0 <= a /\ d <> [] /\ a + blen d < 2 ^ 64) ->
  match sruns (map (wr i) segs) (fresh units auto i) with
  | SOk _ s => exists n, front (known segs) n /\ blen (delivered (k_log s)) = n /\ reads (known segs) 0 (delivered (k_log s)) /\
               sink_size s = u64 n /\ sequence_number s = u64 (i + n) /\ got units s
  | SThrow e s => e = ParseError /\ exists u, In u (k_units s) /\ u_done u = true /\ u_skip u = false
  | SCrash => False
  end.
Proof.
  intros units auto i segs DJ OK. pose proof (seg_run auto i segs [] _ (wr_fresh auto i units) (disjoint_proper segs auto DJ OK)) as H.
  cbn [app] in H. destruct (sruns (map (wr i) segs) (fresh units auto i)) as [[] s|e s|] eqn:E; unfold seg_result in H.
  - destruct (wr_facts _ _ _ _ H) as (n & F & R & B & Z1 & Q1 & _). exists n. repeat (split; [assumption|]). eapply sruns_got; [apply wr_data_op|exact E].
  - destruct H as [H | (_ & _ & before & a & d & after & n & E1 & F & L)]; [exact H|]. exfalso.
    destruct (OK a d) as (O1 & O2 & _); [rewrite E1; apply in_or_app; right; left; reflexivity|]. eapply disjoint_not_old; eauto.
  - exact H.
Qed.
(** The pieces of some content arriving in any order. *)
Theorem C15_tiling : forall units auto i ds segs, Forall (fun d => d <> []) ds -> blen (concat ds) < 2 ^ 64 -> Permutation (tile 0 ds) segs ->
  match sruns (map (wr i) segs) (fresh units auto i) with
  | SOk _ s => delivered (k_log s) = concat ds /\ sequence_number s = u64 (i + blen (concat ds)) /\ got units s
  | SThrow e s => e = ParseError /\ exists u, In u (k_units s) /\ u_done u = true /\ u_skip u = false
  | SCrash => False
  end.
Proof.
  intros units auto i ds segs NE L PM. assert (DJ : disjoint segs) by (eapply perm_tile_disjoint; eauto).
  assert (OK : forall a d, In (a, d) segs -> 0 <= a /\ d <> [] /\ a + blen d < 2 ^ 64).
  { intros a d H. assert (H' : In (a, d) (tile 0 ds)) by (eapply Permutation_in; [symmetry; exact PM|exact H]).
    destruct (tile_in _ _ _ _ H') as (x & y & E & ->). pose proof (blen_nn (concat x)). pose proof (blen_nn (concat y)).
    split; [lia|]. split; [rewrite Forall_forall in NE; apply NE; rewrite E; apply in_or_app; right; left; reflexivity|].
    rewrite E, concat_app, blen_cat in L. cbn [concat] in L. rewrite blen_cat in L. lia. }
  pose proof (C15_any_order units auto i segs DJ OK) as H.
  destruct (sruns (map (wr i) segs) (fresh units auto i)) as [[] s|e s|] eqn:E; [|exact H|exact H].
  destruct H as (n & F & B & R & _ & Q & GT).
  assert (DJT : disjoint (tile 0 ds)) by (eapply perm_tile_disjoint; [exact NE|reflexivity]).
  assert (SAME : forall p, known segs p = known (tile 0 ds) p).
  { intros p. apply known_same; [exact DJ|exact DJT|]. intros g. split; intros IN; [eapply Permutation_in; [symmetry; exact PM|exact IN]|eapply Permutation_in; [exact PM|exact IN]]. }
  assert (N : n = blen (concat ds)).
  { apply (front_unique (known (tile 0 ds))); [|apply known_tile_front; auto]. destruct F as (F0 & F1 & F2).
    split; [exact F0|]. split; [intros p P; rewrite <- SAME; apply F1; exact P|rewrite <- SAME; exact F2]. }
  subst n. rewrite N in *. split; [|split; [exact Q|exact GT]].
  apply (reads_all (known segs) (blen (concat ds))); [exact R| |exact N|reflexivity].
  intros k b K. rewrite Z.add_0_l. assert (KL : (k < length (concat ds))%nat) by (apply nth_error_Some; congruence).
  destruct (tile_cover 0 ds (Z.of_nat k) ltac:(unfold blen; lia)) as (a & d & I1 & I2 & I3). rewrite SAME.
  apply (known_disjoint (tile 0 ds) a d); [exact DJT|exact I1|exact I2|]. rewrite <- I3, Z.sub_0_r, Nat2Z.id. exact K.
Qed.
(** Four pieces, in a scrambled order, around the wrap. *)
Example C15_example : exists s, sruns (map (wr (2 ^ 64 - 5)) [(7, [8; 9]); (2, [3; 4; 5]); (0, [1; 2]); (5, [6; 7])]) (fresh [reader] true (2 ^ 64 - 5)) = SOk tt s
  /\ delivered (k_log s) = [1; 2; 3; 4; 5; 6; 7; 8; 9] /\ sequence_number s = 4.
Proof. eexists. split; [vm_compute; reflexivity|]. split; reflexivity. Qed.
Example C15_hypotheses : Permutation (tile 0 [[1; 2]; [3; 4; 5]; [6; 7]; [8; 9]]) [(7, [8; 9]); (2, [3; 4; 5]); (0, [1; 2]); (5, [6; 7])].
Proof.
  cbn.
  etransitivity; [apply (Permutation_app_comm [(0, [1; 2]); (2, [3; 4; 5]); (5, [6; 7])] [(7, [8; 9])])|]. cbn. apply perm_skip. apply perm_swap.
Qed.
(** A missing piece stops delivery there. *)
Example C15_missing : exists s, sruns (map (wr 0) [(7, [8; 9]); (0, [1; 2])]) (fresh [reader] true 0) = SOk tt s /\ delivered (k_log s) = [1; 2].
Proof. eexists. split; [vm_compute; reflexivity|reflexivity]. Qed.

(** ** C16 *)
(** Overlapping segments.  With automatic trimming off there is no restriction on how they overlap; with automatic trimming
    on, a segment must not reach across the position up to which everything has been delivered (what happens otherwise: see
    the counterexamples below). *)
Theorem C16_first_wins : forall units auto i segs, proper auto segs ->
  match sruns (map (wr i) segs) (fresh units auto i) with
  | SOk _ s => exists n, front (known segs) n /\ blen (delivered (k_log s)) = n /\ reads (known segs) 0 (delivered (k_log s)) /\
               sink_size s = u64 n /\ sequence_number s = u64 (i + n) /\ got units s
  | SThrow e s => (e = ParseError /\ exists u, In u (k_units s) /\ u_done u = true /\ u_skip u = false)
      \/ (e = OutOfRange /\ auto = true /\ exists before a d after n, segs = before ++ (a, d) :: after /\ front (known before) n /\ a + blen d <= n)
  | SCrash => False
  end.
Proof.
  intros units auto i segs PR. pose proof (seg_run auto i segs [] _ (wr_fresh auto i units) PR) as H.
  cbn [app] in H. destruct (sruns (map (wr i) segs) (fresh units auto i)) as [[] s|e s|] eqn:E; unfold seg_result in H.
  - destruct (wr_facts _ _ _ _ H) as (n & F & R & B & Z1 & Q1 & _). exists n. repeat (split; [assumption|]). eapply sruns_got; [apply wr_data_op|exact E].
  - exact H.
  - exact H.
Qed.
(** Without automatic trimming the property holds for all segments. *)
Theorem C16_first_wins_untrimmed : forall units i segs,
  (forall a d, In (a, d) segs -> 0 <= a /\ d <> [] /\ a + blen d < 2 ^ 64) ->
  match sruns (map (wr i) segs) (fresh units false i) with
  | SOk _ s => exists n, front (known segs) n /\ blen (delivered (k_log s)) = n /\ reads (known segs) 0 (delivered (k_log s)) /\
               sink_size s = u64 n /\ sequence_number s = u64 (i + n) /\ got units s
  | SThrow e s => e = ParseError /\ exists u, In u (k_units s) /\ u_done u = true /\ u_skip u = false
  | SCrash => False
  end.
Proof.
  intros units i segs OK. pose proof (C16_first_wins units false i segs) as H.
  assert (PR : proper false segs).
  { intros before a d after E. destruct (OK a d) as (O1 & O2 & O3); [rewrite E; apply in_or_app; right; left; reflexivity|].
    repeat (split; [assumption|]). discriminate. }
  specialize (H PR). destruct (sruns (map (wr i) segs) (fresh units false i)) as [[] s|e s|]; [exact H| |exact H].
  destruct H as [H | (_ & K & _)]; [exact H|discriminate].
Qed.
Example C16_example : exists s, sruns (map (wr 9) [(4, [14; 15; 16; 17]); (2, [22; 23; 24]); (6, [36; 37; 38; 39]); (0, [40; 41; 42; 43; 44])]) (fresh [reader] false 9) = SOk tt s
  /\ delivered (k_log s) = [40; 41; 22; 23; 14; 15; 16; 17; 38; 39].
Proof. eexists. split; [vm_compute; reflexivity|reflexivity]. Qed.
Example C16_example_trimmed : proper true [(4, [14; 15; 16; 17]); (2, [22; 23; 24]); (0, [40; 41])] /\
  exists s, sruns (map (wr 9) [(4, [14; 15; 16; 17]); (2, [22; 23; 24]); (0, [40; 41])]) (fresh [reader] true 9) = SOk tt s
  /\ delivered (k_log s) = [40; 41; 22; 23; 14; 15; 16; 17].
Proof.
  split; [|eexists; split; [vm_compute; reflexivity|reflexivity]].
  intros before a d after E.
  assert (Z0 : forall l n, Forall (fun g : seg => 0 < fst g) l -> front (known l) n -> n = 0).
  { intros l n H (F0 & F1 & F2). destruct (Z.eq_dec n 0) as [|N]; [assumption|exfalso]. specialize (F1 0 ltac:(lia)).
    destruct (known_in _ _ F1) as (a' & d' & I1 & I2). rewrite Forall_forall in H. specialize (H _ I1). cbn [fst] in H. lia. }
  destruct before as [|g1 [|g2 [|g3 [|g4 b]]]]; cbn [app] in E; injection E; intros; subst; try discriminate;
    (split; [lia|]; split; [discriminate|]; split; [cbn; lia|]; intros _ n F; left;
     match type of F with front (known ?l) _ => rewrite (Z0 l n ltac:(repeat (apply Forall_cons; [cbn; lia|]); apply Forall_nil) F) end; lia).
Qed.
(** With automatic trimming (the default) bytes get lost: the second segment starts before the position already delivered. *)
Theorem C16_first_wins_refuted : ~ (forall units i segs s n, (forall a d, In (a, d) segs -> 0 <= a /\ d <> [] /\ a + blen d < 2 ^ 64) ->
  sruns (map (wr i) segs) (fresh units true i) = SOk tt s -> front (known segs) n -> blen (delivered (k_log s)) = n).
Proof.
  intros H. pose (segs := [(0, [1; 2; 3; 4; 5]); (3, [4; 5; 6; 7; 8; 9])]).
  destruct (sruns (map (wr 0) segs) (fresh [reader] true 0)) as [[] s|e s|] eqn:E; [|vm_compute in E; discriminate..].
  specialize (H [reader] 0 segs s 9). assert (L : blen (delivered (k_log s)) = 5) by (vm_compute in E; injection E as <-; reflexivity).
  rewrite L in H. assert (5 = 9); [|lia]. apply H; [|exact E|].
  - intros a d [[= <- <-] | [[= <- <-] | []]]; (split; [lia|]; split; [discriminate|]; cbn; lia).
  - split; [lia|]. split; [|reflexivity]. intros p P.
    destruct (Z.lt_ge_cases p 5); [apply (known_of segs 0 [1; 2; 3; 4; 5])|apply (known_of segs 3 [4; 5; 6; 7; 8; 9])]; cbn; auto; lia.
Qed.
(** And the reassembly position can get ahead of the data: after [2,5), [0,2), [3,9) it is 11 instead of 9, and the first two
    bytes of the next segment [9,12) are lost. *)
Theorem C16_position_refuted : exists s s', sruns (map (wr 0) [(2, [2; 3; 4]); (0, [0; 1]); (3, [3; 4; 5; 6; 7; 8])]) (fresh [reader] true 0) = SOk tt s /\
  sequence_number s = 11 /\ delivered (k_log s) = [0; 1; 2; 3; 4; 5; 6; 7; 8] /\ sstep (wr 0 (9, [9; 10; 11])) s = SOk tt s' /\ delivered (k_log s') = [0; 1; 2; 3; 4; 5; 6; 7; 8; 11].
Proof. eexists. eexists. split; [vm_compute; reflexivity|]. split; [reflexivity|]. split; [reflexivity|]. split; [vm_compute; reflexivity|reflexivity]. Qed.
(** Retransmitting old data can make a later write throw. *)
Theorem C16_no_exception_refuted : exists s, sruns (map (wr 0) [(2, [2; 3; 4]); (0, [0; 1]); (5, [5; 6; 7; 8; 9; 10; 11; 12; 13; 14; 15; 16; 17; 18; 19]); (2, [2; 3; 4; 5; 6]); (8, [8])]) (fresh [reader] true 0) = SThrow OutOfRange s.
Proof. eexists. vm_compute. reflexivity. Qed.

(** ** C17 *)
(** A gap reported where the data received so far ends (no segment covers any part of it), then a skip to its end: the
    units learn about the gap and then get the data that has arrived behind it.
    Gaps further ahead: C18_reassembly. *)
Theorem C17_gap_then_skip : forall units auto i segs s g n, proper auto segs ->
  sruns (map (wr i) segs) (fresh units auto i) = SOk tt s -> front (known segs) g -> 0 < n -> g + n < 2 ^ 64 ->
  (forall p, g <= p < g + n -> known segs p = None) -> (forall a d, In (a, d) segs -> ~ (a < g + n < a + blen d)) ->
  match sruns [OGap (u64 (i + g)) n; OSkip (u64 (i + (g + n)))] s with
  | SOk _ s' => exists bs, reads (known segs) (g + n) bs /\ known segs (g + n + blen bs) = None /\
                observed s' = observed s ++ OMissing g n :: obs_data (g + n) bs /\ sequence_number s' = u64 (i + (g + n + blen bs))
  | SThrow e s' => e = ParseError /\ (exists u, In u (k_units s') /\ u_done u = true /\ u_skip u = false)
  | SCrash => False
  end.
Proof.
  intros units auto i segs s g n PR E FG NP LB FREE NS. pose proof (seg_run auto i segs [] _ (wr_fresh auto i units) PR) as W. cbn [app] in W.
  rewrite E in W. cbn [seg_result] in W. pose proof (gap_skip auto i segs s n g W FG NP LB FREE NS) as H. unfold gap_result in H.
  destruct (wr_facts _ _ _ _ W) as (m & _ & _ & _ & _ & _ & _ & KI & _). rewrite KI in H. exact H.
Qed.
Example C17_example : exists s, sruns (map (wr 5) [(0, [1; 2]); (6, [7; 8]); (8, [9])] ++ [OGap 7 4; OSkip 11]) (fresh [reader] true 5) = SOk tt s
  /\ observed s = [OByte 0 1; OByte 1 2; OMissing 2 4; OByte 6 7; OByte 7 8; OByte 8 9] /\ sequence_number s = 14.
Proof. eexists. split; [vm_compute; reflexivity|]. split; reflexivity. Qed.
(** Data behind the gap is not delivered before the skip. *)
Theorem C17_delivery_refuted : exists s, sruns (map (wr 5) [(0, [1; 2]); (6, [7; 8]); (8, [9])] ++ [OGap 7 4]) (fresh [reader] true 5) = SOk tt s
  /\ observed s = [OByte 0 1; OByte 1 2; OMissing 2 4].
Proof. eexists. split; [vm_compute; reflexivity|]. reflexivity. Qed.
(** A gap that overlaps data that has been buffered, and starts before it, crashes. *)
Theorem C17_no_crash_refuted : exists s, sstep (wr 0 (10, [1; 2; 3])) (fresh [reader] true 0) = SOk tt s /\ sstep (OGap 5 7) s = SCrash.
Proof. eexists. split; [vm_compute; reflexivity|]. vm_compute. reflexivity. Qed.

(** ** C18 *)
(** Any sequence of writes, gaps, skips and trims, each admissible where it happens (SinkSpec.admissible): the sink does what
    the specification of reassembly says, in particular positions are delivered in increasing order, after a skip delivery
    continues at its target, and trimming has no effect on what is delivered.
    What is not admissible - skipping backwards, skipping or trimming into the middle of a segment - goes wrong: see below. *)
Theorem C18_reassembly : forall units auto i ops, follows auto i ops (fresh units auto i) rinit [].
Proof.
  intros units auto i ops. eapply follows_inv; [apply inv_fresh|reflexivity|cbn; lia|]. intros x e H. discriminate H.
Qed.
Example C18_example : exists s, sruns (map (call 5) [RWrite 3 [3; 4; 5]; RWrite 0 [0; 1]; RSkip 3; RTrim 2; RGap 6 2; RWrite 8 [8; 9]; RSkip 10; RWrite 10 [10]]) (fresh [reader] true 5) = SOk tt s
  /\ observed s = [OByte 0 0; OByte 1 1; OByte 3 3; OByte 4 4; OByte 5 5; OMissing 6 2; OByte 8 8; OByte 9 9; OByte 10 10].
Proof. eexists. split; [vm_compute; reflexivity|]. reflexivity. Qed.
(** The first five of these are admissible where they happen. *)
Fixpoint all_admissible (auto : bool) (ops : list rop) (r : rstate) : Prop :=
  match ops with [] => True | o :: ops' => admissible auto r o /\ exists os r', rstep r o os r' /\ all_admissible auto ops' r' end.
Example C18_admissible : all_admissible true [RWrite 3 [3; 4; 5]; RWrite 0 [0; 1]; RSkip 3; RTrim 2; RGap 6 2] rinit.
Proof.
  split; [cbn; intuition (lia || discriminate)|]. eexists. eexists. split; [apply rs_go, adv_wait; reflexivity|].
  split; [cbn; intuition (lia || discriminate)|]. eexists. eexists.
  split; [apply rs_go; do 2 (eapply adv_byte; [reflexivity|]); apply adv_wait; reflexivity|].
  split. { cbn. split; [lia|]. intros a b [[= <- <-] | [[= <- <-] | []]]; lia. }
  eexists. eexists. split; [apply rs_go; do 3 (eapply adv_byte; [reflexivity|]); apply adv_wait; reflexivity|].
  split; [cbn; intuition lia|]. eexists. eexists. split; [apply rs_go; apply adv_wait; reflexivity|].
  split. { cbn [admissible r_pos r_map provide fst snd]. split; [cbn; lia|]. split; [lia|]. split; [lia|].
    intros p P. assert (p = 6 \/ p = 7) as [-> | ->] by lia; reflexivity. }
  eexists. eexists. split; [apply rs_go; eapply adv_gap; reflexivity|exact Logic.I].
Qed.
(** Skipping backwards moves the position back; data is delivered again. *)
Theorem C18_forward_only_refuted : exists s, sruns [OWrite [1; 2; 3; 4] None None; OSkip 1; OWrite [9] None None] (fresh [reader] true 0) = SOk tt s /\
  sequence_number s = 2 /\ observed s = [OByte 0 1; OByte 1 2; OByte 2 3; OByte 3 4; OByte 1 9].
Proof. eexists. split; [vm_compute; reflexivity|]. split; reflexivity. Qed.
(** Skipping into the middle of a segment loses the rest of the segment. *)
Theorem C18_skip_continues_refuted : exists s, sruns [wr 0 (2, [2; 3; 4; 5]); OSkip 4] (fresh [reader] true 0) = SOk tt s /\ observed s = [] /\ k_chunks s = [].
Proof. eexists. split; [vm_compute; reflexivity|]. split; reflexivity. Qed.
(** Trimming discards data above the trim position. *)
Theorem C18_trim_keeps_refuted : exists s, sruns [wr 0 (2, [2; 3; 4; 5; 6; 7; 8; 9]); OTrim 5; OSkip 5] (fresh [reader] true 0) = SOk tt s /\ observed s = [] /\ k_chunks s = [].
Proof. eexists. split; [vm_compute; reflexivity|]. split; reflexivity. Qed.

(** ** C19 *)
(** Two sinks in the same state except that the second's initial sequence number and the sequence numbers it has reported are
    shifted by [k]; the same operations with sequence numbers shifted by [k] keep them so, whatever the outcomes. *)
Theorem C19_shift : forall k ops s s',
  k_units s' = k_units s -> k_auto s' = k_auto s -> k_size s' = k_size s -> k_init s' = u64 (k_init s + k) -> k_cur s' = k_cur s ->
  k_last s' = k_last s -> k_trim s' = k_trim s -> k_chunks s' = k_chunks s -> k_log s' = map (shift_ev k) (k_log s) -> k_closed s' = k_closed s ->
  forallb keeps_base ops = true ->
  match srun ops s, srun (map (shift_op k) ops) s' with
  | SOk _ t, SOk _ t' => k_log t' = map (shift_ev k) (k_log t) /\ all_units t' = all_units t /\ sink_size t' = sink_size t /\
                         sequence_number t' = u64 (sequence_number t + k)
  | SCrash, SCrash => True
  | _, _ => False
  end.
Proof.
  intros k ops s s' E1 E2 E3 E4 E5 E6 E7 E8 E9 E10 KB. assert (E : s' = shift k s).
  { destruct s'; cbn in *. subst. reflexivity. }
  subst s'. rewrite run_shift by exact KB.
  assert (NT : forall ops s e t, srun ops s <> SThrow e t).
  { clear. induction ops as [|o ops IH]; intros s e t; cbn [srun]; [discriminate|]. destruct (sstep o s); auto; discriminate. }
  destruct (srun ops s) as [u t|e t|] eqn:R; cbn [shr]; [|eapply NT; exact R|exact Logic.I].
  split; [reflexivity|]. split; [reflexivity|]. split; [reflexivity|]. unfold sequence_number. cbn [shift k_init k_cur]. rewrite !u64_add. f_equal. lia.
Qed.
(** From new sinks with initial sequence numbers set by the client. *)
Theorem C19_shift_from_start : forall k i ops, forallb keeps_base ops = true ->
  match srun (OInitSeq i :: ops) sink0, srun (OInitSeq (u64 (i + k)) :: map (shift_op k) ops) sink0 with
  | SOk _ t, SOk _ t' => k_log t' = map (shift_ev k) (k_log t) /\ all_units t' = all_units t /\ sink_size t' = sink_size t /\
                         sequence_number t' = u64 (sequence_number t + k)
  | SCrash, SCrash => True
  | _, _ => False
  end.
Proof.
  intros k i ops KB. cbn [srun sstep sink0 k_cur k_chunks negb orb Z.eqb]. apply C19_shift; try reflexivity. exact KB.
Qed.
Example C19_example : exists t t', srun [OInitSeq 5; OConnect (fun _ => Waiting); OWrite [3; 4] (Some 7) None; OWrite [1; 2] None None; OGap 9 3] sink0 = SOk tt t /\
  srun [OInitSeq 1; OConnect (fun _ => Waiting); OWrite [3; 4] (Some 3) None; OWrite [1; 2] None None; OGap 5 3] sink0 = SOk tt t' /\
  k_log t = [EvData 5 [1; 2]; EvData 7 [3; 4]; EvGap 9 3] /\ k_log t' = [EvData 1 [1; 2]; EvData 3 [3; 4]; EvGap 5 3] /\
  map (shift_ev (2 ^ 64 - 4)) (k_log t) = k_log t'.
Proof. eexists. eexists. split; [vm_compute; reflexivity|]. split; [vm_compute; reflexivity|]. split; [reflexivity|]. split; vm_compute; reflexivity. Qed.

(** ** C20 *)
(** Whatever a client does to a sink in whatever state: what has been reported stays, units that have been disconnected get
    nothing anymore, and the input of every unit only grows, not at all once it has completed or failed. *)
Theorem C20_history : forall ops s s', srun ops s = SOk tt s' ->
  (exists evs, k_log s' = k_log s ++ evs) /\
  (exists more, k_closed s' = k_closed s ++ more) /\
  (exists now new, k_closed s' ++ k_units s' = now ++ new /\
     Forall2 (fun u u' => (exists more, u_in u' = u_in u ++ more) /\ (u_done u = true \/ u_skip u = true -> u' = u)) (k_closed s ++ k_units s) now).
Proof.
  intros ops s s' E. pose proof (run_later ops s) as H. rewrite E in H. destruct H as (H1 & H2 & now & new & H3 & H4).
  split; [exact H1|]. split; [exact H2|]. exists now, new. split; [exact H3|].
  unfold all_units in H4. clear - H4. induction H4 as [|u u' us us' (_ & G1 & G2) F IH]; constructor; auto.
Qed.
(** One operation: the units get exactly what is reported as delivered, in order, and the size grows by as much (by more if the
    operation fails), modulo 2^64. *)
Theorem C20_step : forall o s, data_op o = true ->
  match sstep o s with
  | SOk _ s' => exists evs, k_log s' = k_log s ++ evs /\ Forall2 (given (pieces evs)) (k_units s) (k_units s') /\
                u64 (sink_size s') = u64 (sink_size s + blen (concat (pieces evs)))
  | SThrow _ s' => exists evs n, k_log s' = k_log s ++ evs /\ Forall2 (given (pieces evs)) (k_units s) (k_units s') /\
                u64 (sink_size s') = u64 (sink_size s + n) /\ blen (concat (pieces evs)) <= n
  | SCrash => True
  end.
Proof.
  intros o s D. pose proof (step_eff o s D) as H. destruct (sstep o s) as [u s'|e s'|]; cbn [effr] in H; [| |exact Logic.I].
  - destruct H as (evs & [H1 H2 _ _ _ (n & H3 & _ & H4)]). exists evs. split; [exact H1|]. split; [apply passed_given; exact H2|].
    rewrite concat_pieces. rewrite <- (H4 eq_refl). exact H3.
  - destruct H as (evs & [H1 H2 _ _ _ (n & H3 & H4 & _)]). exists evs, n. split; [exact H1|]. split; [apply passed_given; exact H2|].
    split; [exact H3|]. rewrite concat_pieces. exact H4.
Qed.
Example C20_example : exists s, srun [OConnect (u_beh picky); OWrite [1; 2] None None; OWrite [3; 4] None None; OWrite [5; 6] None None; OClose; OWrite [7] None None] sink0 = SOk tt s /\
  map u_in (k_closed s) = [[[1; 2]; [3; 4]]] /\ k_units s = [] /\ delivered (k_log s) = [1; 2; 3; 4; 5; 6; 7].
Proof. eexists. split; [vm_compute; reflexivity|]. split; [reflexivity|]. split; reflexivity. Qed.
(** The size counts data that was not delivered because a unit had completed. *)
Theorem C20_size_refuted : exists s, srun (OConnect (u_beh three) :: map (fun d => OWrite d None None) [[1; 2; 3]; [4; 5]]) sink0 = SOk tt s /\
  sink_size s = 5 /\ delivered (k_log s) = [1; 2; 3].
Proof. eexists. split; [vm_compute; reflexivity|]. split; reflexivity. Qed.
