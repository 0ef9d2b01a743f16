From Verif Require Import Base StreamModel StreamSpec StreamProofs StreamProofs2 ViewModel ViewSpec ViewProofs ViewProofs2 ViewProofs3.

Lemma size_window os ch q v lo hi : view_at os ch q v lo hi -> q_begin q <= lo -> ordered lo hi ->
  v_size ch v = length (window q lo hi).
Proof.
  intros H Hlo Ho. pose proof (view_facts _ _ _ _ _ _ H) as F.
  rewrite (window_win _ _ _ _ _ F Hlo), (v_size_ok _ _ (vf_wf _ _ _ _ _ F) (facts_range _ _ _ _ _ F Hlo Ho)).
  rewrite (vf_off _ _ _ _ _ F). reflexivity.
Qed.

Lemma q_end_eq q q' : q_begin q' = q_begin q -> q_cells q' = q_cells q -> q_end q' = q_end q.
Proof. unfold q_end. intros -> ->. reflexivity. Qed.

Lemma window_skip q lo hi n : q_begin q <= lo -> window q (lo + n) hi = skipn n (window q lo hi).
Proof.
  intros H. unfold window. cbv zeta. set (stop := match hi with None => _ | Some _ => _ end). rewrite skipn_firstn_comm, skipn_skipn'.
  replace (lo + n - q_begin q) with (n + (lo - q_begin q)) by lia.
  replace (stop - (lo + n)) with (stop - lo - n) by lia. reflexivity.
Qed.

Lemma window_same q q' lo hi : q_begin q' = q_begin q -> q_cells q' = q_cells q -> window q' lo hi = window q lo hi.
Proof. intros A B. unfold window. rewrite (q_end_eq q q' A B), A, B. reflexivity. Qed.

Lemma window_limit q lo hi n : q_begin q <= lo -> ordered lo hi ->
  window q lo (Some (lo + match hi with Some e => Nat.min n (e - lo) | None => n end)) = firstn n (window q lo hi).
Proof.
  intros H Ho. unfold window. rewrite firstn_firstn. set (l := skipn (lo - q_begin q) (q_cells q)).
  assert (HL : length l = q_end q - lo) by (unfold l, q_end; rewrite skipn_length; lia).
  destruct hi as [e|]; cbn in Ho.
  - f_equal. lia.
  - destruct (Nat.le_gt_cases (lo + n) (q_end q)).
    + f_equal. lia.
    + rewrite !firstn_all2 by lia. reflexivity.
Qed.

Lemma advance_spec os ch q v lo hi n : view_at os ch q v lo hi -> q_begin q <= lo ->
  exists os' q' v', v_advance ch v n = Ok v' /\ view_at os' ch q' v' (lo + n) hi /\
    window q' (lo + n) hi = skipn n (window q lo hi).
Proof.
  intros H Hlo. destruct (view_advance os ch q v lo hi n H) as (os' & q' & v' & E & Hv & A & B).
  exists os', q', v'. split; [exact E|]. split; [exact Hv|].
  rewrite (window_same q q' _ _ A B). apply window_skip. exact Hlo.
Qed.

Lemma limit_spec os ch q v lo hi n : view_at os ch q v lo hi -> q_begin q <= lo ->
  (match hi with Some e => lo <= e < Z.to_nat (2 ^ 64) | None => True end) ->
  exists os' q' v' hi', v_limit ch v n = Ok v' /\ view_at os' ch q' v' lo (Some hi') /\
    hi' = lo + (match hi with Some e => Nat.min n (e - lo) | None => n end) /\
    window q' lo (Some hi') = firstn n (window q lo hi).
Proof.
  intros H Hlo Hh. destruct (view_limit os ch q v lo hi n H Hlo Hh) as (os' & q' & v' & E & Hv & A & B).
  do 4 eexists. split; [exact E|]. split; [exact Hv|]. split; [reflexivity|].
  rewrite (window_same q q' _ _ A B). apply window_limit; [exact Hlo|]. destruct hi; cbn; lia.
Qed.

Lemma trim_spec os ch q v lo hi i p : view_at os ch q v lo hi -> q_begin q <= lo -> ordered lo hi ->
  holds (fst (run client_new os)) q i p -> lo <= p ->
  exists v' lo', v_trim ch v i = Ok v' /\ view_at os ch q v' lo' hi /\
    lo' = (match hi with Some e => Nat.min p e | None => p end) /\
    window q lo' hi = skipn (p - lo) (window q lo hi).
Proof.
  intros H Hlo Ho Hi Hp. pose proof (view_facts _ _ _ _ _ _ H) as F.
  destruct (holds_good (fst (run client_new os)) q i p) as [Gi Oi].
  { destruct H as [Hc -> -> Ha _ _]. apply (run_sim os _ _ sim_new Hc). }
  { apply H. }
  { exact Hi. }
  assert (HW : window q p hi = skipn (p - lo) (window q lo hi)).
  { replace p with (lo + (p - lo)) at 1 by lia. apply window_skip. exact Hlo. }
  pose proof (vf_end _ _ _ _ _ F) as Ee. unfold v_end_off in Ee. unfold v_trim.
  destruct H as [Hc Hch Hq Ha Hb He]. destruct (v_end v) as [e|] eqn:Ev; cbn in Ee; subst hi.
  - cbn in Ho. rewrite Oi.
    assert (Hens : forall b, ch_hoff ch <= it_off b -> v_static ch b e = Ok (mkView b (Some e))).
    { intros b Hbo. unfold v_static. rewrite ensure_ok; [reflexivity|apply (vf_valid _ _ _ _ _ F)|exact Hbo]. }
    pose proof (vf_hoff _ _ _ _ _ F) as Hho.
    destruct (Nat.ltb_spec (it_off e) p) as [Hlt|Hge].
    + exists (mkView e (Some e)), (it_off e). split; [apply Hens; lia|]. split.
      { constructor; auto. }
      split; [lia|]. rewrite <- HW. unfold window. replace (Nat.min (it_off e) (q_end q) - it_off e) with 0 by lia.
      replace (Nat.min (it_off e) (q_end q) - p) with 0 by lia. reflexivity.
    + exists (mkView i (Some e)), p. split; [apply Hens; lia|]. split; [constructor; auto|].
      split; [lia|exact HW].
  - exists (mkView i None), p. split; [reflexivity|]. split; [constructor; auto|]. split; [reflexivity|exact HW].
Qed.

Lemma complete_spec os ch q v lo hi : view_at os ch q v lo hi -> q_begin q <= lo ->
  v_is_complete ch v = Ok (q_frozen q || match hi with Some e => e <=? q_end q | None => false end).
Proof.
  intros H Hlo. pose proof (view_facts _ _ _ _ _ _ H) as F. unfold v_is_complete.
  rewrite ensure_ok; [|apply (vf_valid _ _ _ _ _ F)|rewrite (vf_off _ _ _ _ _ F), <- (vf_hoff _ _ _ _ _ F); exact Hlo].
  cbn [bind]. rewrite (vf_frozen _ _ _ _ _ F), (vf_end _ _ _ _ _ F), (vf_qend _ _ _ _ _ F).
  destruct (q_frozen q); [reflexivity|]. destruct hi; reflexivity.
Qed.

Lemma trimmed_view_throws os ch q v lo hi : view_at os ch q v lo hi -> lo < q_begin q ->
  v_is_complete ch v = Throw InvalidIterator /\ (forall n, v_extract ch v n = Throw InvalidIterator) /\
  v_first_block ch v = Throw InvalidIterator /\
  (forall b n, v_find ch v b n = Throw InvalidIterator) /\ (forall b, v_starts_with ch v b = Throw InvalidIterator).
Proof.
  intros H Hlo. pose proof (view_facts _ _ _ _ _ _ H) as F.
  assert (E : v_ensure_valid ch v = Throw InvalidIterator).
  { unfold v_ensure_valid. rewrite (vf_valid _ _ _ _ _ F), (vf_off _ _ _ _ _ F), <- (vf_hoff _ _ _ _ _ F). cbn [negb].
    destruct (Nat.ltb_spec lo (q_begin q)); [reflexivity|lia]. }
  unfold v_is_complete, v_extract, v_first_block, v_find, v_starts_with. rewrite E. cbn. auto.
Qed.

Lemma blocks_spec os ch q v lo hi : view_at os ch q v lo hi -> q_begin q <= lo -> ordered lo hi ->
  (exists bs bl, no_gap (window q lo hi) bs /\ v_blocks ch v = Ok bl /\ flat_map bk_data bl = bs /\
     well_numbered lo true bl) \/
  (In CGap (window q lo hi) /\ v_blocks ch v = Throw MissingData).
Proof.
  intros H Hlo Ho. pose proof (view_facts _ _ _ _ _ _ H) as F. rewrite (window_win _ _ _ _ _ F Hlo).
  pose proof (v_blocks_ok ch v (vf_wf _ _ _ _ _ F) (vf_valid _ _ _ _ _ F) (vf_good _ _ _ _ _ F) (facts_range _ _ _ _ _ F Hlo Ho)) as B.
  rewrite (vf_off _ _ _ _ _ F) in B. exact B.
Qed.

Lemma extract_spec os ch q v lo hi n : view_at os ch q v lo hi -> q_begin q <= lo -> ordered lo hi ->
  let w := window q lo hi in
  (length w < n -> v_extract ch v n = Throw WouldBlock) /\
  (n <= length w -> In CGap (firstn n w) -> v_extract ch v n = Throw MissingData) /\
  (forall bs, n <= length w -> firstn n w = map CByte bs ->
     exists v', v_advance ch v n = Ok v' /\ v_extract ch v n = Ok (bs, v')).
Proof.
  intros H Hlo Ho w. pose proof (view_facts _ _ _ _ _ _ H) as F.
  assert (E : v_extract ch v n = if length w <? n then Throw WouldBlock
    else let* bs := take_cells w n in let* v' := v_advance ch v n in Ok (bs, v')).
  { unfold w. rewrite (window_win _ _ _ _ _ F Hlo).
    rewrite (v_extract_ok ch v n (vf_wf _ _ _ _ _ F) (vf_valid _ _ _ _ _ F) (vf_good _ _ _ _ _ F) (facts_range _ _ _ _ _ F Hlo Ho)).
    rewrite (vf_off _ _ _ _ _ F). reflexivity. }
  rewrite E. destruct (view_advance os ch q v lo hi n H) as (os' & q' & v' & Ev & _). rewrite Ev. cbn [bind].
  split; [|split].
  - intros Hn. destruct (Nat.ltb_spec (length w) n); [reflexivity|lia].
  - intros Hn Hg. destruct (Nat.ltb_spec (length w) n); [lia|]. rewrite (take_cells_gap w n Hn Hg). reflexivity.
  - intros bs Hn Hbs. destruct (Nat.ltb_spec (length w) n); [lia|]. exists v'. split; [reflexivity|].
    assert (Hl : length bs = n).
    { apply (f_equal (@length cell)) in Hbs. rewrite firstn_length, map_length in Hbs. lia. }
    assert (Et : take_cells w n = Ok bs).
    { rewrite <- (firstn_skipn n w), Hbs. rewrite take_cells_app by lia. rewrite firstn_all2 by lia. reflexivity. }
    rewrite Et. reflexivity.
Qed.

Lemma find_spec os ch q v lo hi needle n st : view_at os ch q v lo hi -> q_begin q <= lo -> ordered lo hi ->
  start_ok os q n lo hi st ->
  v_find ch v needle n = search_cells (window q st hi) needle st.
Proof.
  intros H Hlo Ho Hs. pose proof (view_facts _ _ _ _ _ _ H) as F.
  assert (Hst : q_begin q <= st) by (destruct n; cbn in Hs; [lia|subst; exact Hlo]).
  rewrite (v_find_ok ch v needle n st (vf_wf _ _ _ _ _ F) (vf_valid _ _ _ _ _ F) (vf_good _ _ _ _ _ F) (facts_range _ _ _ _ _ F Hlo Ho)).
  - f_equal. symmetry. apply (window_win_at _ _ _ _ _ _ F Hst).
  - destruct n as [i|]; cbn in Hs.
    + destruct Hs as (Hh & H1 & H2). destruct (holds_good (fst (run client_new os)) q i st) as [Gi Oi]; auto.
      { destruct H as [Hc -> -> Ha _ _]. apply (run_sim os _ _ sim_new Hc). }
      { apply H. }
      split. { rewrite (va_chain _ _ _ _ _ _ H). exact Gi. }
      split; [symmetry; exact Oi|]. split; [rewrite (vf_off _ _ _ _ _ F); exact H1|].
      pose proof (vf_end _ _ _ _ _ F) as Ee. unfold vhi. rewrite Ee. unfold v_end_off in Ee.
      destruct (v_end v) as [e|]; [left|right; reflexivity]. cbn in Ee. subst hi. exact H2.
    + rewrite (vf_off _ _ _ _ _ F). exact Hs.
Qed.

Lemma find_declarative os ch q v lo hi needle n st bs : view_at os ch q v lo hi -> q_begin q <= lo -> ordered lo hi ->
  start_ok os q n lo hi st -> no_gap (window q st hi) bs ->
  exists found k, v_find ch v needle n = Ok (found, st + k) /\ (found = true -> occurs needle bs k) /\ (found = false -> partial_at needle bs k) /\ (forall k', k' < k -> ~ occurs needle bs k' /\ ~ partial_at needle bs k').
Proof.
  intros H Hlo Ho Hs Hg. rewrite (find_spec os ch q v lo hi needle n st H Hlo Ho Hs), Hg. apply search_cells_bytes.
Qed.

Lemma rfind_spec os ch q v lo hi needle n p bs : view_at os ch q v lo hi -> q_begin q <= lo -> ordered lo hi ->
  holds (fst (run client_new os)) q n p -> lo <= p <= lo + length (window q lo hi) -> p < q_end q ->
  needle <> [] -> length needle <= p - lo -> no_gap (window q lo (Some (S p))) bs ->
  exists found j, v_rfind ch v needle (Some n) = Ok (found, Some (lo + j)) /\ (found = true -> occurs needle bs j) /\ (found = false -> forall i, ~ occurs needle bs i) /\ (found = true -> forall i, j < i -> ~ occurs needle bs i).
Proof.
  intros H Hlo Ho Hh Hp Hpe Hne Hlen Hg. pose proof (view_facts _ _ _ _ _ _ H) as F.
  destruct (holds_good (fst (run client_new os)) q n p) as [Gi Oi]; auto.
  { destruct H as [Hc -> -> Ha _ _]. apply (run_sim os _ _ sim_new Hc). }
  { apply H. }
  rewrite (window_win _ _ _ _ _ F Hlo) in Hp.
  destruct (v_rfind_ok ch v needle n p bs (vf_wf _ _ _ _ _ F) (vf_valid _ _ _ _ _ F) (vf_good _ _ _ _ _ F) (facts_range _ _ _ _ _ F Hlo Ho))
    as (fd & j & E & A); auto; try (rewrite (vf_off _ _ _ _ _ F)).
  - rewrite (va_chain _ _ _ _ _ _ H). exact Gi.
  - lia.
  - exact (proj2 Hp).
  - rewrite <- (vf_qend _ _ _ _ _ F). exact Hpe.
  - exact Hlen.
  - unfold no_gap, window in Hg. rewrite <- Hg. rewrite (vf_cells _ _ _ _ _ F), skipn_skipn'.
    destruct (avail ch (vf_wf _ _ _ _ _ F)) as [_ Hav]. rewrite (vf_hoff _ _ _ _ _ F) in *.
    f_equal; [lia|]. f_equal. lia.
  - exists fd, j. rewrite (vf_off _ _ _ _ _ F) in E. auto.
Qed.

Lemma eq_bytes_spec os ch q v lo hi bs : view_at os ch q v lo hi -> q_begin q <= lo -> ordered lo hi ->
  v_eq_bytes ch v bs = if length (window q lo hi) =? length bs then eq_cells (window q lo hi) bs else Ok false.
Proof.
  intros H Hlo Ho. pose proof (view_facts _ _ _ _ _ _ H) as F. rewrite (window_win _ _ _ _ _ F Hlo).
  rewrite (v_eq_bytes_ok ch v bs (vf_wf _ _ _ _ _ F) (vf_valid _ _ _ _ _ F) (vf_good _ _ _ _ _ F) (facts_range _ _ _ _ _ F Hlo Ho)).
  rewrite (vf_off _ _ _ _ _ F). reflexivity.
Qed.

Lemma eq_cells_bytes bs : forall bs', eq_cells (map CByte bs) bs' = Ok (if list_eq_dec Z.eq_dec bs bs' then true else false).
Proof.
  induction bs as [|b bs IH]; intros [|c bs']; cbn [map eq_cells]; try reflexivity.
  destruct (Z.eqb_spec b c) as [->|Hne].
  - rewrite IH. destruct (list_eq_dec Z.eq_dec bs bs'), (list_eq_dec Z.eq_dec (c :: bs) (c :: bs')); congruence.
  - destruct (list_eq_dec Z.eq_dec (b :: bs) (c :: bs')); congruence.
Qed.

Lemma eq_bytes_gapless os ch q v lo hi bs bs' : view_at os ch q v lo hi -> q_begin q <= lo -> ordered lo hi ->
  no_gap (window q lo hi) bs -> v_eq_bytes ch v bs' = Ok (if list_eq_dec Z.eq_dec bs bs' then true else false).
Proof.
  intros H Hlo Ho Hg. rewrite (eq_bytes_spec os ch q v lo hi bs' H Hlo Ho). unfold no_gap in Hg. rewrite Hg, eq_cells_bytes, map_length.
  destruct (Nat.eqb_spec (length bs) (length bs')) as [E|E]; [reflexivity|].
  destruct (list_eq_dec Z.eq_dec bs bs') as [->|]; congruence.
Qed.

Lemma starts_spec os ch q v lo hi bs : view_at os ch q v lo hi -> q_begin q <= lo -> ordered lo hi ->
  v_starts_with ch v bs = starts_cells (window q lo hi) bs.
Proof.
  intros H Hlo Ho. pose proof (view_facts _ _ _ _ _ _ H) as F. rewrite (window_win _ _ _ _ _ F Hlo).
  rewrite (v_starts_with_ok ch v bs (vf_wf _ _ _ _ _ F) (vf_valid _ _ _ _ _ F) (vf_good _ _ _ _ _ F) (facts_range _ _ _ _ _ F Hlo Ho)).
  rewrite (vf_off _ _ _ _ _ F). reflexivity.
Qed.

Lemma starts_cells_bytes bs : forall p, exists r, starts_cells (map CByte bs) p = Ok r /\ (r = true <-> prefix p bs).
Proof.
  induction bs as [|b bs IH]; intros [|c p]; cbn [map starts_cells].
  - exists true. split; [reflexivity|]. split; [exists []; reflexivity|reflexivity].
  - exists false. split; [reflexivity|]. split; [discriminate|]. intros [d E]. discriminate.
  - exists true. split; [reflexivity|]. split; [exists (b :: bs); reflexivity|reflexivity].
  - destruct (Z.eqb_spec b c) as [->|Hne].
    + destruct (IH p) as (r & -> & Hr). exists r. split; [reflexivity|]. rewrite Hr. split; intros [d E].
      * exists d. rewrite E. reflexivity.
      * injection E as E. exists d. exact E.
    + exists false. split; [reflexivity|]. split; [discriminate|]. intros [d E]. injection E as E1 E2. congruence.
Qed.

Lemma starts_gapless os ch q v lo hi bs p : view_at os ch q v lo hi -> q_begin q <= lo -> ordered lo hi ->
  no_gap (window q lo hi) bs -> exists r, v_starts_with ch v p = Ok r /\ (r = true <-> prefix p bs).
Proof. intros H Hlo Ho Hg. rewrite (starts_spec os ch q v lo hi p H Hlo Ho), Hg. apply starts_cells_bytes. Qed.

Lemma eq_view_spec os1 ch1 q1 v1 lo1 hi1 os2 ch2 q2 v2 lo2 hi2 :
  view_at os1 ch1 q1 v1 lo1 hi1 -> q_begin q1 <= lo1 -> ordered lo1 hi1 ->
  view_at os2 ch2 q2 v2 lo2 hi2 -> q_begin q2 <= lo2 -> ordered lo2 hi2 ->
  exists r, v_eq_view ch1 v1 ch2 v2 = Ok r /\ (r = true <-> window q1 lo1 hi1 = window q2 lo2 hi2).
Proof.
  intros H1 L1 O1 H2 L2 O2. pose proof (view_facts _ _ _ _ _ _ H1) as F1. pose proof (view_facts _ _ _ _ _ _ H2) as F2.
  rewrite (window_win _ _ _ _ _ F1 L1), (window_win _ _ _ _ _ F2 L2).
  eexists. split.
  - apply v_eq_view_ok; try apply F1; try apply F2; eapply facts_range; eauto.
  - rewrite (vf_off _ _ _ _ _ F1), (vf_off _ _ _ _ _ F2).
    destruct (cells_eqb_spec (win ch1 lo1 (vhi ch1 v1)) (win ch2 lo2 (vhi ch2 v2))) as [E|E]; split; congruence.
Qed.

Lemma next_data_spec os ch q v lo hi : view_at os ch q v lo hi ->
  let o0 := if lo <? q_begin q then q_begin q else lo + 1 in
  (lo < q_begin q -> q_cells q <> []) ->
  exists v', v_next_data ch v = Ok v' /\ v_end v' = v_end v /\ v_off v' = next_data_in (skipn (o0 - q_begin q) (q_cells q)) o0.
Proof.
  intros H o0 Hne. pose proof (view_facts _ _ _ _ _ _ H) as F. destruct (avail ch (vf_wf _ _ _ _ _ F)) as [_ Hav].
  destruct (v_next_data_ok ch v (vf_wf _ _ _ _ _ F) (vf_valid _ _ _ _ _ F) (vf_good _ _ _ _ _ F)) as (i & E & Hi & _).
  - rewrite (vf_off _ _ _ _ _ F), <- (vf_hoff _ _ _ _ _ F). intros Hlt Hc. apply (Hne Hlt).
    rewrite (vf_cells _ _ _ _ _ F), Hc. unfold cells. cbn. apply skipn_nil.
  - exists (mkView i (v_end v)). split; [exact E|]. split; [reflexivity|]. unfold v_off at 1. cbn [v_begin]. rewrite Hi.
    rewrite (vf_off _ _ _ _ _ F), <- (vf_hoff _ _ _ _ _ F). fold o0.
    rewrite (vf_cells _ _ _ _ _ F), skipn_skipn'.
    assert (q_begin q <= o0) by (unfold o0; destruct (Nat.ltb_spec lo (q_begin q)); lia).
    rewrite (vf_hoff _ _ _ _ _ F) in *.
    f_equal. f_equal. lia.
Qed.

Lemma next_data_in_spec w : forall o, exists k, next_data_in w o = o + k /\ k <= length w /\ (forall j, j < k -> nth_error w j = Some CGap) /\ nth_error w k <> Some CGap.
Proof.
  induction w as [|c w IH]; intros o; [exists 0; cbn; repeat split; try lia; discriminate|].
  destruct c as [b|]; cbn [next_data_in].
  - exists 0. cbn. repeat split; try lia; discriminate.
  - destruct (IH (S o)) as (k & E & Hk & A & B). exists (S k). cbn. repeat split; try lia; auto.
    intros [|j] Hj; [reflexivity|]. apply A. lia.
Qed.

Lemma next_data_decl os ch q v lo hi : view_at os ch q v lo hi ->
  let o0 := if lo <? q_begin q then q_begin q else lo + 1 in
  (lo < q_begin q -> q_cells q <> []) ->
  exists v' k, v_next_data ch v = Ok v' /\ v_end v' = v_end v /\ v_off v' = o0 + k /\
    (forall j, j < k -> q_get q (o0 + j) = Some CGap) /\ q_get q (o0 + k) <> Some CGap.
Proof.
  intros H o0 Hne. destruct (next_data_spec os ch q v lo hi H Hne) as (v' & E & Ev & Eo). fold o0 in Eo.
  assert (B : q_begin q <= o0) by (unfold o0; destruct (Nat.ltb_spec lo (q_begin q)); lia).
  assert (G : forall j, q_get q (o0 + j) = nth_error (skipn (o0 - q_begin q) (q_cells q)) j).
  { intros j. unfold q_get. destruct (Nat.ltb_spec (o0 + j) (q_begin q)); [lia|]. rewrite nth_error_skipn. f_equal. lia. }
  destruct (next_data_in_spec (skipn (o0 - q_begin q) (q_cells q)) o0) as (k & Ek & _ & A1 & A2).
  exists v', k. split; [exact E|]. split; [exact Ev|]. split; [congruence|]. split.
  - intros j Hj. rewrite G. apply A1. exact Hj.
  - rewrite G. exact A2.
Qed.

Lemma window_sub q lo hi a b : q_begin q <= lo -> (match hi with Some e => lo + b <= e | None => True end) ->
  window q (lo + a) (Some (lo + b)) = firstn (b - a) (skipn a (window q lo hi)).
Proof.
  intros L H. unfold window. rewrite skipn_firstn_comm, firstn_firstn, skipn_skipn'.
  replace (a + (lo - q_begin q)) with (lo + a - q_begin q) by lia.
  set (l := skipn (lo + a - q_begin q) (q_cells q)).
  assert (Hl : length l = length (q_cells q) - (lo + a - q_begin q)) by apply skipn_length.
  destruct (Nat.le_gt_cases (lo + b) (q_end q)) as [Hb|Hb].
  - f_equal. destruct hi as [e|]; lia.
  - rewrite !firstn_all2; [reflexivity| |]; rewrite Hl; unfold q_end in *; destruct hi; lia.
Qed.

Lemma sub_spec os ch q v lo hi from to : view_at os ch q v lo hi -> q_begin q <= lo ->
  exists os' q' v', v_sub ch v from to = Ok v' /\ view_at os' ch q' v' (lo + from) (Some (lo + to)) /\
    window q' (lo + from) (Some (lo + to)) = firstn (to - from) (skipn from (window q lo None)) /\
    (match hi with Some e => lo + to <= e | None => True end ->
     window q' (lo + from) (Some (lo + to)) = firstn (to - from) (skipn from (window q lo hi))).
Proof.
  intros Hv Hlo. pose proof (view_facts _ _ _ _ _ _ Hv) as F. destruct Hv as [Hc -> -> Ha Hb He].
  destruct (holds_incr os (v_begin v) lo from Hc Ha Hb) as (os1 & i1 & q1 & E1 & Hc1 & Eq1 & Ech1 & Eb1 & Ecs1 & Ed1 & Hh1 & Hk1).
  rewrite Eq1 in *.
  destruct (holds_incr os1 (v_begin v) lo to Hc1 Ed1 (Hk1 _ _ Hb)) as (os2 & i2 & q2 & E2 & Hc2 & Eq2 & Ech2 & Eb2 & Ecs2 & Ed2 & Hh2 & Hk2).
  rewrite Ech1 in E2.
  assert (Oi : it_off i1 = lo + from).
  { destruct (run_sim os1 _ _ sim_new Hc1) as [S1 _]. apply (holds_good _ _ _ _ S1 Ed1 Hh1). }
  exists os2, q2, (mkView i1 (Some i2)). split; [|split; [|split]].
  - unfold v_sub. rewrite E1. cbn [bind]. rewrite E2. cbn [bind]. unfold v_static. rewrite ensure_ok; [reflexivity|apply (vf_valid _ _ _ _ _ F)|].
    unfold v_off. cbn [v_begin]. rewrite Oi. pose proof (vf_hoff _ _ _ _ _ F). lia.
  - constructor; cbn [v_begin v_end]; auto. congruence.
  - rewrite (window_same (fst (spec_run queue_new os)) q2) by congruence. apply window_sub; [exact Hlo|exact I].
  - intros H. rewrite (window_same (fst (spec_run queue_new os)) q2) by congruence. apply window_sub; assumption.
Qed.

(** Backward search: the cases in which nothing is read. *)
Lemma rfind_short os ch q v lo hi needle n p : view_at os ch q v lo hi -> q_begin q <= lo -> ordered lo hi ->
  holds (fst (run client_new os)) q n p -> lo <= p <= lo + length (window q lo hi) ->
  (needle = [] -> v_rfind ch v needle (Some n) = Ok (true, Some p)) /\
  (needle <> [] -> p - lo < length needle -> v_rfind ch v needle (Some n) = Ok (false, None)).
Proof.
  intros H Hlo Ho Hh Hp. pose proof (view_facts _ _ _ _ _ _ H) as F.
  destruct (holds_good (fst (run client_new os)) q n p) as [Gi Oi]; auto.
  { destruct H as [Hc -> -> Ha _ _]. apply (run_sim os _ _ sim_new Hc). }
  { apply H. }
  rewrite <- (va_chain _ _ _ _ _ _ H) in Gi.
  pose proof (vf_wf _ _ _ _ _ F) as W. pose proof (vf_valid _ _ _ _ _ F) as V.
  unfold v_rfind. rewrite ensure_ok; [|exact V|rewrite (vf_off _ _ _ _ _ F), <- (vf_hoff _ _ _ _ _ F); exact Hlo].
  cbn [bind]. rewrite (u_of_safe_ok ch n W V Gi). cbn [bind]. rewrite Oi. unfold find_backward. split.
  - intros ->. reflexivity.
  - intros N L. destruct needle as [|c y]; [congruence|].
    rewrite (v_size_ok ch v W (facts_range _ _ _ _ _ F Hlo Ho)). cbn [u_off U].
    rewrite (vf_off _ _ _ _ _ F). rewrite <- (window_win _ _ _ _ _ F Hlo).
    destruct (Nat.ltb_spec (lo + length (window q lo hi)) p); [lia|].
    destruct (Nat.ltb_spec p lo); [lia|].
    destruct (Nat.ltb_spec (p - lo) (length (c :: y))); [reflexivity|lia].
Qed.

Lemma rfind_none ch v needle e : v_end v = Some e -> v_rfind ch v needle None = v_rfind ch v needle (Some e).
Proof. intros E. unfold v_rfind, v_uend. rewrite E. reflexivity. Qed.

(** advanceToNextData when the whole stream has been trimmed off *)
Lemma next_data_empty os ch q v lo hi : view_at os ch q v lo hi -> lo < q_begin q -> q_cells q = [] ->
  exists v', v_next_data ch v = Ok v' /\ v_end v' = v_end v /\ v_off v' = lo + 1.
Proof.
  intros H L N. pose proof (view_facts _ _ _ _ _ _ H) as F.
  assert (C : ch_chunks ch = []).
  { pose proof (vf_cells _ _ _ _ _ F) as E. rewrite N in E. pose proof (vf_wf _ _ _ _ _ F) as W.
    destruct (avail ch W) as [A B]. rewrite <- E in A. cbn in A. pose proof (wf_hoff _ W) as Hh. pose proof (ch_end_eq _ (wf_contig _ W)) as Ee.
    pose proof (wf_contig _ W) as Wc. unfold base in *.
    destruct (ch_chunks ch) as [|c cs]; [reflexivity|]. exfalso. rewrite cells_cons, app_length, pcells_len in Ee. cbn [contig] in Wc. unfold c_end in *. lia. }
  destruct (view_advance os ch q v lo hi 1 H) as (os1 & q1 & v1 & E1 & Hv1 & _).
  exists v1. split; [|split].
  - unfold v_next_data. rewrite (vf_off _ _ _ _ _ F). rewrite (vf_hoff _ _ _ _ _ F) in L. rewrite (proj2 (Nat.ltb_lt _ _) L).
    unfold it_begin. rewrite (vf_valid _ _ _ _ _ F). cbn [negb bind]. rewrite C. unfold it_chunk_hint. cbn [it_chunk].
    replace (if _ && _ then None else None : option nat) with (@None nat) by (destruct (_ && _); reflexivity). cbn [bind].
    rewrite (it_decr_exact ch (v_begin v) _ (vf_wf _ _ _ _ _ F) (vf_valid _ _ _ _ _ F) (proj1 (vf_good _ _ _ _ _ F)));
      [|pose proof (vf_off _ _ _ _ _ F) as E; unfold v_off in E; lia].
    cbn [bind]. exact E1.
  - unfold v_advance in E1. destruct (it_incr ch (v_begin v) 1); cbn in E1; try discriminate. injection E1 as <-. reflexivity.
  - pose proof (view_facts _ _ _ _ _ _ Hv1) as F1. rewrite (vf_off _ _ _ _ _ F1). reflexivity.
Qed.
