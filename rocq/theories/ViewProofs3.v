From Verif Require Import Base StreamModel StreamSpec StreamProofs StreamProofs2 ViewModel ViewSpec ViewProofs ViewProofs2.

(** *** Backward search *)
Lemma match_back_ok ch y : forall x, wf ch -> ch_is_valid ch = true -> base ch <= x -> x + length y <= ch_end ch -> y <> [] ->
  match_back_loop ch (U ch x) y =
  match cmp_cells (skipn (x - base ch) (cells (ch_chunks ch))) y with
  | Ok MFull => Ok true | Ok _ => Ok false | Throw e => Throw e | UB => UB end.
Proof.
  induction y as [|c y IH]; intros x W V Hb Hl Hy; [congruence|]. cbn [match_back_loop cmp_cells].
  destruct (cells_length ch W) as [HL HB]. cbn [length] in Hl.
  rewrite (u_deref_U _ _ W Hb). unfold cell_at.
  destruct (nth_error (cells (ch_chunks ch)) (x - base ch)) as [d|] eqn:E.
  2:{ apply nth_error_None in E. lia. }
  rewrite (skipn_nth _ _ _ E). destruct d as [b|]; [|reflexivity]. cbn [bind cmp_cells].
  rewrite (u_incr_U _ _ _ W V). cbn [bind]. rewrite Nat.add_1_r.
  destruct (Z.eqb b c); [|reflexivity].
  destruct y as [|c2 y]; [destruct (skipn _ _); reflexivity|].
  rewrite IH; auto; try lia; try discriminate. replace (S x - base ch) with (S (x - base ch)) by lia. reflexivity.
Qed.

(** The bytes from [lo] on, as far as known, when they contain no gap up to [p]. *)
Lemma find_back_ok ch lo first y (bs : bytes) : wf ch -> ch_is_valid ch = true -> base ch <= lo ->
  lo + length bs <= ch_end ch ->
  firstn (length bs) (skipn (lo - base ch) (cells (ch_chunks ch))) = map CByte bs ->
  forall k fuel, k < fuel -> k + length (first :: y) <= length bs ->
  exists found j, find_back_loop fuel ch (U ch lo) first (first :: y) (U ch (lo + k)) = Ok (found, U ch (lo + j)) /\
    j <= k /\
    (found = true -> occurs (first :: y) bs j) /\
    (found = false -> j = 0 /\ forall i, i <= k -> ~ occurs (first :: y) bs i) /\
    (forall i, j < i <= k -> ~ occurs (first :: y) bs i).
Proof.
  intros W V Hb Hl Hbs. destruct (cells_length ch W) as [HL HB].
  assert (Hocc : forall k, k + length (first :: y) <= length bs ->
     cmp_cells (skipn (lo + k - base ch) (cells (ch_chunks ch))) (first :: y) =
     cmp_cells (map CByte (skipn k bs)) (first :: y)).
  { intros k Hk. rewrite <- skipn_map, <- Hbs. rewrite skipn_firstn_comm, skipn_skipn'.
    replace (k + (lo - base ch)) with (lo + k - base ch) by lia.
    assert (HG : forall w n m, length n <= m -> m <= length w -> cmp_cells w n = cmp_cells (firstn m w) n).
    { clear. induction w as [|x w IH]; intros n m H1 H2; [rewrite firstn_nil; reflexivity|].
      destruct n as [|a n]; [destruct (firstn m (x :: w)); reflexivity|].
      destruct m as [|m]; [cbn in H1; lia|]. cbn [firstn cmp_cells]. destruct x as [b|]; [|reflexivity].
      destruct (Z.eqb b a); [|reflexivity]. apply IH; cbn in *; lia. }
    apply HG; [lia|]. rewrite skipn_length. lia. }
  assert (Hpre : forall k, occurs (first :: y) bs k <-> prefix (first :: y) (skipn k bs)).
  { intros k. split.
    - intros (a & c & E & Ha). subst bs k. rewrite skipn_app, skipn_all, Nat.sub_diag. exists c. reflexivity.
    - intros [c E]. exists (firstn k bs), c. rewrite <- E, firstn_skipn. split; [reflexivity|].
      rewrite firstn_length. assert (k < length bs); [|lia].
      destruct (Nat.lt_ge_cases k (length bs)); [assumption|]. rewrite skipn_all2 in E by assumption. discriminate. }
  induction k as [k IHk] using (well_founded_induction lt_wf). intros fuel Hf Hk.
  destruct fuel as [|f]; [lia|]. cbn [find_back_loop].
  assert (Hm : (let* b := u_deref ch (U ch (lo + k)) in
                if Z.eqb b first then match_back_loop ch (U ch (lo + k)) (first :: y) else Ok false) =
               Ok (match cmp_cells (map CByte (skipn k bs)) (first :: y) with Ok MFull => true | _ => false end)).
  { pose proof (Hocc k Hk) as Hc. pose proof (cmp_cells_bytes (skipn k bs) (first :: y)) as Hcb.
    cbn [length] in Hk.
    assert (HM : u_deref ch (U ch (lo + k)) = match cell_at ch (lo + k) with
       | Some (CByte b) => Ok b | Some CGap => Throw MissingData | None => UB end) by (apply u_deref_U; [exact W|lia]).
    unfold cell_at in HM.
    destruct (nth_error (cells (ch_chunks ch)) (lo + k - base ch)) as [d|] eqn:E; [|apply nth_error_None in E; lia].
    assert (Ed : exists b, d = CByte b).
    { assert (nth_error (map CByte bs) k = Some d).
      { rewrite <- Hbs, nth_error_firstn_lt by lia. rewrite nth_error_skipn.
        replace (lo - base ch + k) with (lo + k - base ch) by lia. exact E. }
      rewrite nth_error_map in H. destruct (nth_error bs k) as [b|]; [|discriminate]. cbn in H. injection H as <-. eauto. }
    destruct Ed as [b ->]. rewrite HM. cbn [bind].
    destruct (Z.eqb b first) eqn:Eb.
    - rewrite (match_back_ok ch (first :: y) (lo + k) W V); [|lia|cbn [length]; lia|discriminate].
      rewrite Hc. destruct (cmp_cells (map CByte (skipn k bs)) (first :: y)) as [[| |]|e|]; try contradiction; reflexivity.
    - rewrite <- Hc. rewrite (skipn_nth _ _ _ E). cbn [cmp_cells]. rewrite Eb. reflexivity. }
  destruct (u_deref ch (U ch (lo + k))) as [b|e|]; cbn [bind] in *; try discriminate.
  destruct (if Z.eqb b first then _ else _) as [m|e|]; try discriminate. injection Hm as ->. cbn [bind].
  pose proof (cmp_cells_bytes (skipn k bs) (first :: y)) as Hcb.
  assert (Hno : (match cmp_cells (map CByte (skipn k bs)) (first :: y) with Ok MFull => true | _ => false end) = true
                <-> occurs (first :: y) bs k).
  { rewrite Hpre. destruct (cmp_cells (map CByte (skipn k bs)) (first :: y)) as [[| |]|e|]; try contradiction.
    - tauto.
    - split; [discriminate|]. intros [d Ed]. destruct Hcb as (c & Hc & E). exfalso.
      apply (f_equal (@length byte)) in Ed, E. rewrite app_length in Ed, E. destruct c; [congruence|]. cbn in *. lia.
    - split; [discriminate|]. tauto. }
  destruct (match cmp_cells (map CByte (skipn k bs)) (first :: y) with Ok MFull => true | _ => false end) eqn:Em.
  - exists true, k. split; [reflexivity|]. split; [lia|]. split; [tauto|]. split; [discriminate|]. intros i Hi; lia.
  - assert (Hnk : ~ occurs (first :: y) bs k) by (rewrite <- Hno; discriminate).
    cbn [length] in Hk.
    assert (Hq : u_eq ch (U ch (lo + k)) (U ch lo) = (k =? 0)) by (unfold u_eq, U; cbn [u_off]; lia).
    rewrite Hq. destruct (Nat.eqb_spec k 0) as [->|Hk0].
    + exists false, 0. split; [reflexivity|]. split; [lia|]. split; [discriminate|].
      split; [|intros i Hi; lia]. intros _. split; [reflexivity|]. intros i Hi. replace i with 0 by lia. exact Hnk.
    + rewrite (u_decr_U _ _ _ W V) by lia. cbn [bind].
      replace (lo + k - 1) with (lo + (k - 1)) by lia.
      destruct (IHk (k - 1)) with (fuel := f) as (fd & j & -> & H1 & H2 & H3 & H4); try lia; [cbn [length]; lia|].
      exists fd, j. split; [reflexivity|]. split; [lia|]. split; [exact H2|]. split.
      * intros Hfd. destruct (H3 Hfd) as [Hj Hi]. split; [exact Hj|]. intros i Hik.
        destruct (Nat.eq_dec i k) as [->|]; [exact Hnk|apply Hi; lia].
      * intros i Hi. destruct (Nat.eq_dec i k) as [->|]; [exact Hnk|apply H4; lia].
Qed.

(** Backward search from a position [p] whose byte is known. *)
Lemma v_rfind_ok ch v needle n p (bs : bytes) : wf ch -> ch_is_valid ch = true -> vgood ch v -> vrange ch v ->
  good ch n -> it_off n = p -> v_off v <= p -> p <= v_off v + length (win ch (v_off v) (vhi ch v)) -> p < ch_end ch ->
  needle <> [] -> length needle <= p - v_off v ->
  firstn (S p - v_off v) (skipn (v_off v - base ch) (cells (ch_chunks ch))) = map CByte bs ->
  exists found j, v_rfind ch v needle (Some n) = Ok (found, Some (v_off v + j)) /\
    (found = true -> occurs needle bs j) /\
    (found = false -> forall i, ~ occurs needle bs i) /\
    (found = true -> forall i, j < i -> ~ occurs needle bs i).
Proof.
  intros W V G R Gn En Hp1 Hp2 Hp3 Hne Hlen Hbs. destruct (cells_length ch W) as [HL HB].
  destruct (vrange_ok ch v W R) as [Hb _].
  assert (Hlb : length bs = S p - v_off v).
  { apply (f_equal (@length cell)) in Hbs. rewrite firstn_length, skipn_length, map_length in Hbs. lia. }
  unfold v_rfind. rewrite (ensure_ok ch v V (proj1 R)), (u_of_safe_ok ch n W V Gn). cbn [bind].
  rewrite En. unfold find_backward. destruct needle as [|c y]; [congruence|].
  rewrite (v_size_ok ch v W R). cbn [u_off U].
  destruct (Nat.ltb_spec (v_off v + length (win ch (v_off v) (vhi ch v))) p); [lia|].
  destruct (Nat.ltb_spec p (v_off v)); [lia|].
  destruct (Nat.ltb_spec (p - v_off v) (length (c :: y))); [lia|].
  rewrite (u_decr_U _ _ _ W V) by lia. cbn [bind]. rewrite (ubegin_ok _ _ W V G). cbn [bind u_off U].
  set (k := p - v_off v - (length (c :: y) - 1)).
  replace (p - (length (c :: y) - 1)) with (v_off v + k) by (unfold k; cbn [length] in *; lia).
  destruct (find_back_ok ch (v_off v) c y bs W V Hb) with (k := k) (fuel := S (v_off v + k - v_off v))
    as (fd & j & -> & F1 & F2 & F3 & F4).
  - lia.
  - rewrite <- Hbs. f_equal. lia.
  - lia.
  - unfold k. cbn [length] in *. lia.
  - assert (Hout : forall i, k < i -> ~ occurs (c :: y) bs i).
    { intros i Hi (a & d & E & Ha). apply (f_equal (@length byte)) in E. rewrite !app_length in E.
      unfold k in *. cbn [length] in *. lia. }
    exists fd, j. cbn [bind fst snd option_map u_off U]. split; [reflexivity|]. split; [exact F2|]. split.
    + intros Hfd i. destruct (Nat.le_gt_cases i k); [apply (proj2 (F3 Hfd)); assumption|apply Hout; assumption].
    + intros _ i Hi. destruct (Nat.le_gt_cases i k); [apply F4; lia|apply Hout; assumption].
Qed.

(** *** Next data *)
Lemma next_data_gaps n w o : next_data_in (repeat CGap n ++ w) o = next_data_in w (o + n).
Proof.
  revert o; induction n as [|n IH]; intros o; cbn [repeat app next_data_in]; [rewrite Nat.add_0_r; reflexivity|].
  rewrite IH. f_equal. lia.
Qed.

Lemma skip_gaps_ok cs : forall b le, contig b cs ->
  match skip_gaps cs le with
  | (Some o, _) => next_data_in (cells cs) b = o /\ In (c_off (hd (mkChunk 0 0 0 (PGap 0)) cs)) [b]
                   \/ next_data_in (cells cs) b = o
  | (None, Some e) => next_data_in (cells cs) b = (match cs with [] => b | _ => e end) /\
                      (cs <> [] -> e = b + length (cells cs))
  | (None, None) => cs = []
  end.
Proof.
  induction cs as [|c cs IH]; intros b le H; cbn [skip_gaps].
  - destruct le; [split; [reflexivity|congruence]|reflexivity].
  - cbn [contig] in H. destruct H as (Hb & Hs & H). rewrite cells_cons. unfold c_is_gap.
    destruct (c_pay c) as [bs|n] eqn:E; cbn [pcells].
    + right. assert (Hsz : c_size c = length bs) by (unfold c_size; rewrite E; reflexivity).
      destruct bs as [|x bs]; [cbn in Hsz; lia|]. cbn. lia.
    + assert (Hsz : c_size c = n) by (unfold c_size; rewrite E; reflexivity).
      rewrite next_data_gaps. specialize (IH (c_end c) (Some (c_end c)) H).
      assert (He : b + n = c_end c) by (unfold c_end; lia).
      destruct (skip_gaps cs (Some (c_end c))) as [[o|] le'] eqn:Es.
      * right. rewrite He. destruct IH as [[IH _]|IH]; exact IH.
      * destruct le' as [e|].
        -- destruct IH as [IH1 IH2]. rewrite app_length, repeat_length.
           destruct cs as [|c2 cs].
           ++ cbn in Es. injection Es as <-. split; [rewrite He; exact IH1|]. intros _. cbn. lia.
           ++ split; [rewrite He; exact IH1|]. intros _. rewrite IH2 by discriminate. lia.
        -- subst cs. cbn in Es. discriminate.
Qed.

Lemma next_data_app_gap w o k : next_data_in (repeat CGap k ++ w) o = next_data_in w (o + k).
Proof. apply next_data_gaps. Qed.

Lemma v_next_data_ok ch v : wf ch -> ch_is_valid ch = true -> vgood ch v ->
  let o0 := if v_off v <? ch_hoff ch then ch_hoff ch else v_off v + 1 in
  (v_off v < ch_hoff ch -> ch_chunks ch <> []) ->
  exists i, v_next_data ch v = Ok (mkView i (v_end v)) /\
    it_off i = next_data_in (skipn (o0 - base ch) (cells (ch_chunks ch))) o0 /\ good ch i.
Proof.
  intros W V [G _] o0 Hne. destruct (avail ch W) as [_ Hav]. destruct (cells_length ch W) as [HL HB].
  assert (Hi : exists i, (if v_off v <? ch_hoff ch then it_begin ch else it_incr ch (v_begin v) 1) = Ok i /\
     it_off i = o0 /\ good ch i /\ it_chunk_hint ch i = option_map c_id (walk o0 (ch_chunks ch))).
  { unfold o0. destruct (Nat.ltb_spec (v_off v) (ch_hoff ch)) as [H|H].
    - unfold it_begin. rewrite V. cbn [negb]. pose proof (wf_hoff _ W) as Hh. specialize (Hne H).
      destruct (ch_chunks ch) as [|c cs] eqn:E; [congruence|].
      eexists. split; [reflexivity|]. split; [reflexivity|].
      assert (Hin : In c (ch_chunks ch)) by (rewrite E; left; reflexivity).
      assert (Hr : c_in_range c (ch_hoff ch) = true) by (apply in_range_iff; exact Hh).
      rewrite <- E. rewrite (walk_unique (base ch) _ c _ (wf_contig _ W) Hin Hr).
      unfold good, it_chunk_hint. cbn [it_off it_chunk option_map]. rewrite V. cbn [andb].
      assert (Hrr : ch_in_range ch (ch_hoff ch) = true).
      { destruct (suffix_ok ch c W Hin) as (a & s & Hch & _ & Ho). pose proof (chunk_end_le ch a c s W Hch Ho).
        unfold ch_in_range. lia. }
      rewrite Hrr. split; [|reflexivity]. exists c. auto.
    - rewrite (it_incr_exact ch (v_begin v) 1 W V G). eexists. split; [reflexivity|]. split; [reflexivity|].
      split; [apply exact_good|]. unfold it_chunk_hint, exact_it. cbn [it_off it_chunk]. rewrite V. cbn [andb].
      change (it_off (v_begin v)) with (v_off v).
      destruct (walk (v_off v + 1) (ch_chunks ch)) as [c|] eqn:E; [|destruct (ch_in_range _ _); reflexivity].
      destruct (walk_in _ _ _ E) as [Hin Hc]. apply in_range_iff in Hc.
      destruct (suffix_ok ch c W Hin) as (a & s & Hch & _ & Ho). pose proof (chunk_end_le ch a c s W Hch Ho).
      replace (ch_in_range ch (v_off v + 1)) with true by (unfold ch_in_range; lia). reflexivity. }
  destruct Hi as (i & Ei & Hoff & Gi & Hh). unfold v_next_data. rewrite Ei. cbn [bind]. rewrite Hh.
  assert (Hb0 : base ch <= o0) by (unfold o0; destruct (Nat.ltb_spec (v_off v) (ch_hoff ch)); lia).
  destruct (walk o0 (ch_chunks ch)) as [c|] eqn:E; cbn [option_map].
  - destruct (walk_in _ _ _ E) as [Hin Hc]. apply in_range_iff in Hc.
    destruct (suffix_ok ch c W Hin) as (a & s & Hch & -> & Ho). cbn [bind fst snd].
    assert (Hcells : skipn (o0 - base ch) (cells (ch_chunks ch)) = skipn (o0 - c_off c) (pcells (c_pay c)) ++ cells s)
      by (apply (cells_from ch a c s o0 Hch Ho); lia).
    rewrite Hcells. destruct (c_is_gap c) eqn:Eg; cbn [negb].
    + unfold c_is_gap in Eg. destruct (c_pay c) as [|g] eqn:Ep; [discriminate|]. cbn [pcells].
      assert (Hsz : c_size c = g) by (unfold c_size; rewrite Ep; reflexivity).
      assert (Hsk : skipn (o0 - c_off c) (repeat CGap g) = repeat CGap (c_end c - o0)).
      { replace g with ((o0 - c_off c) + (c_end c - o0)) by (unfold c_end in *; lia).
        rewrite repeat_app, skipn_app, repeat_length, Nat.sub_diag, skipn_all2 by (rewrite repeat_length; lia). reflexivity. }
      rewrite Hsk, next_data_gaps. replace (o0 + (c_end c - o0)) with (c_end c) by lia.
      pose proof (wf_contig _ W) as HC. rewrite Hch in HC. apply contig_app in HC. destruct HC as [_ HC]. cbn [contig] in HC.
      destruct HC as (_ & _ & HC).
      rewrite (it_decr_exact ch (v_begin v) (v_off v) W V G) by (unfold v_off; lia). cbn [bind].
      assert (Hz : exists z, (match v_off v with 0 => v_begin v | S _ => exact_it ch (it_off (v_begin v) - v_off v) end) = z /\
                   good ch z /\ it_off z = 0).
      { destruct (v_off v) as [|vo] eqn:Ev; eexists; split; try reflexivity.
        - split; [exact G|exact Ev].
        - split; [apply exact_good|]. cbn [exact_it it_off]. unfold v_off in Ev. lia. }
      destruct Hz as (z & -> & Gz & Hz).
      assert (Hgo : forall o, exists j, (let* n := it_incr ch z o in Ok (mkView n (v_end v))) = Ok (mkView j (v_end v)) /\ it_off j = o /\ good ch j).
      { intros o. rewrite (it_incr_exact ch z o W V Gz). cbn [bind]. eexists. split; [reflexivity|].
        destruct o as [|o]; [split; [exact Hz|exact Gz]|]. split; [cbn; lia|apply exact_good]. }
      cbn [skip_gaps]. unfold c_is_gap. rewrite Ep.
      pose proof (skip_gaps_ok s (c_end c) (Some (c_end c)) HC) as Hsg.
      destruct (skip_gaps s (Some (c_end c))) as [[o|] le] eqn:Es.
      * destruct (Hgo o) as (j & -> & Hj & Gj). exists j. split; [reflexivity|]. split; [|exact Gj].
        rewrite Hj. destruct Hsg as [[Hsg _]|Hsg]; symmetry; exact Hsg.
      * destruct le as [e|].
        -- destruct (Hgo e) as (j & -> & Hj & Gj). exists j. split; [reflexivity|]. split; [|exact Gj].
           rewrite Hj. destruct s as [|c2 s].
           ++ cbn in Es. injection Es as <-. reflexivity.
           ++ symmetry. apply Hsg.
        -- subst s. cbn in Es. discriminate.
    + exists i. split; [reflexivity|]. split; [|exact Gi]. rewrite Hoff. unfold c_is_gap in Eg.
      destruct (c_pay c) as [bs|g] eqn:Ep; [|discriminate]. cbn [pcells]. rewrite skipn_map.
      assert (Hsz : c_size c = length bs) by (unfold c_size; rewrite Ep; reflexivity).
      destruct (skipn (o0 - c_off c) bs) as [|x l] eqn:Ex; [|reflexivity].
      apply (f_equal (@length byte)) in Ex. rewrite skipn_length in Ex. unfold c_end in *. cbn in Ex. lia.
  - cbn [bind]. rewrite (it_decr_exact ch (v_begin v) (v_off v) W V G) by (unfold v_off; lia). cbn [bind].
    unfold v_advance. rewrite (it_incr_exact ch (v_begin v) 1 W V G). cbn [bind].
    eexists. split; [reflexivity|]. split; [|apply exact_good].
    pose proof (walk_spec (base ch) (ch_chunks ch) o0 (wf_contig _ W) Hb0) as Hw. rewrite E in Hw.
    apply nth_error_None in Hw. rewrite skipn_all2 by lia. cbn [next_data_in exact_it it_off].
    unfold o0. destruct (Nat.ltb_spec (v_off v) (ch_hoff ch)) as [H|H]; [|reflexivity].
    exfalso. specialize (Hne H). destruct (ch_chunks ch) as [|c cs] eqn:Ec; [congruence|].
    pose proof (wf_hoff _ W) as Hh2. rewrite Ec in Hh2.
    unfold o0 in E. destruct (Nat.ltb_spec (v_off v) (ch_hoff ch)); [|lia].
    unfold walk in E. cbn [find] in E. replace (c_in_range c (ch_hoff ch)) with true in E by (unfold c_in_range; lia). discriminate.
Qed.

(** *** From client programs to views *)
Record vfacts (ch : chain) (q : queue) (v : view) (lo : nat) (hi : option nat) : Prop := {
  vf_wf : wf ch; vf_valid : ch_is_valid ch = true; vf_good : vgood ch v;
  vf_off : v_off v = lo; vf_end : v_end_off v = hi;
  vf_frozen : ch_is_frozen ch = q_frozen q;
  vf_hoff : q_begin q = ch_hoff ch; vf_qend : q_end q = ch_end ch;
  vf_cells : q_cells q = skipn (ch_hoff ch - base ch) (cells (ch_chunks ch)) }.

Lemma holds_good s q i o : sim s q -> q_dead q = false -> holds s q i o -> good (cl_chain s) i /\ it_off i = o.
Proof.
  intros S Hd (k & h & Hi & Hh & Ho & Hf). destruct (sim_live _ _ S Hd) as (W & Hb & _ & Hits).
  specialize (Hits k h i Hh Hi). split; [|destruct Hits as [E _]; congruence].
  unfold good, it_chunk_hint. destruct (ch_is_valid (cl_chain s) && ch_in_range (cl_chain s) (it_off i)) eqn:E; [|exact I].
  apply andb_true_iff in E. destruct E as [_ E].
  apply (it_hint_ok (cl_chain s) h i W Hits E). unfold h_fresh in Hf. rewrite Hd in Hf. cbn [orb] in Hf.
  apply negb_true_iff in Hf. rewrite Hb in Hf. exact Hf.
Qed.

Lemma view_facts os ch q v lo hi : view_at os ch q v lo hi -> vfacts ch q v lo hi.
Proof.
  intros [Hc -> -> Ha Hb He]. destruct (run_sim os _ _ sim_new Hc) as [S _].
  destruct (sim_live _ _ S Ha) as (W & Hq & Hcells & _). destruct (holds_good _ _ _ _ S Ha Hb) as [Gb Ob].
  assert (V : ch_is_valid (cl_chain (fst (run client_new os))) = true) by (rewrite (sim_valid _ _ S), Ha; reflexivity).
  constructor; auto.
  - split; [exact Gb|]. destruct (v_end v) as [e|]; [|exact I]. destruct hi; [|contradiction].
    apply (holds_good _ _ _ _ S Ha He).
  - unfold v_end_off. destruct (v_end v) as [e|], hi as [h|]; try contradiction; [|reflexivity].
    cbn. f_equal. apply (holds_good _ _ _ _ S Ha He).
  - unfold ch_is_frozen. rewrite (sim_state _ _ S), Ha. destruct (q_frozen _); reflexivity.
  - unfold q_end. rewrite Hcells, Hq. destruct (avail _ W) as [-> Hav]. lia.
Qed.

Lemma window_win_at ch q v lo hi st : vfacts ch q v lo hi -> q_begin q <= st -> window q st hi = win ch st (vhi ch v).
Proof.
  intros F Hlo. unfold window, win, vhi. rewrite (vf_end _ _ _ _ _ F), (vf_qend _ _ _ _ _ F), (vf_cells _ _ _ _ _ F).
  rewrite skipn_skipn'. destruct (avail ch (vf_wf _ _ _ _ _ F)) as [_ Hav]. rewrite (vf_hoff _ _ _ _ _ F) in *.
  replace (st - ch_hoff ch + (ch_hoff ch - base ch)) with (st - base ch) by lia.
  destruct hi as [h|]; [reflexivity|]. rewrite Nat.min_id. reflexivity.
Qed.

Lemma window_win ch q v lo hi : vfacts ch q v lo hi -> q_begin q <= lo -> window q lo hi = win ch lo (vhi ch v).
Proof. intros F. apply (window_win_at _ _ _ _ _ _ F). Qed.

Lemma facts_range ch q v lo hi : vfacts ch q v lo hi -> q_begin q <= lo -> ordered lo hi -> vrange ch v.
Proof.
  intros F Hlo Ho. split; [rewrite (vf_off _ _ _ _ _ F); pose proof (vf_hoff _ _ _ _ _ F); lia|].
  pose proof (vf_end _ _ _ _ _ F) as He. unfold vhi. rewrite He. unfold v_end_off in He.
  destruct (v_end v) as [e|]; [left|right; reflexivity]. cbn in He. subst hi. cbn in Ho.
  rewrite (vf_off _ _ _ _ _ F). exact Ho.
Qed.

Lemma run_snoc os o : let s := fst (run client_new os) in
  fst (run client_new (os ++ [o])) = fst (step s o).
Proof. cbv zeta. rewrite run_app. cbn [run]. destruct (step _ o); reflexivity. Qed.
Lemma spec_run_snoc os o : fst (spec_run queue_new (os ++ [o])) = fst (spec_step (fst (spec_run queue_new os)) o).
Proof. rewrite spec_run_app. cbn [spec_run]. destruct (spec_step _ o); reflexivity. Qed.

Lemma holds_add s q i o i' h' : length (cl_its s) = length (q_hs q) -> holds s q i o ->
  holds (mkClient (cl_chain s) (cl_its s ++ [i'])) (add_handle q h') i o.
Proof.
  intros Hl (k & h & Hi & Hh & Ho & Hf). exists k, h. cbn [cl_its add_handle q_hs].
  rewrite !nth_error_app1 by (apply nth_error_Some; congruence). auto.
Qed.

(** Moving an iterator the client holds is again something the client can do. *)
Lemma holds_incr os i o n : contract queue_new os = true -> q_dead (fst (spec_run queue_new os)) = false ->
  let s := fst (run client_new os) in let q := fst (spec_run queue_new os) in
  holds s q i o ->
  exists os' i' q', it_incr (cl_chain s) i n = Ok i' /\
    contract queue_new os' = true /\ q' = fst (spec_run queue_new os') /\
    cl_chain (fst (run client_new os')) = cl_chain s /\
    q_begin q' = q_begin q /\ q_cells q' = q_cells q /\ q_dead q' = false /\
    holds (fst (run client_new os')) q' i' (o + n) /\
    forall j p, holds s q j p -> holds (fst (run client_new os')) q' j p.
Proof.
  intros Hc Hd s q Hh. pose proof Hh as (k & h & Hi & Hk & Ho & Hf).
  destruct (run_sim os _ _ sim_new Hc) as [S _]. destruct (sim_live _ _ S Hd) as (W & _).
  destruct (holds_good _ _ _ _ S Hd Hh) as [G Eo].
  assert (V : ch_is_valid (cl_chain s) = true) by (unfold s; rewrite (sim_valid _ _ S), Hd; reflexivity).
  set (i' := match n with 0 => i | _ => exact_it (cl_chain s) (it_off i + n) end).
  assert (Ei : it_incr (cl_chain s) i n = Ok i') by (apply it_incr_exact; assumption).
  set (h' := mkHandle (h_off h + n) (h_end h && (n =? 0))).
  assert (Es : fst (run client_new (os ++ [OIncr k n])) = mkClient (cl_chain s) (cl_its s ++ [i'])).
  { rewrite run_snoc. cbn [step]. unfold on_iter. fold s. rewrite Hi, Ei. reflexivity. }
  assert (Eq : fst (spec_run queue_new (os ++ [OIncr k n])) = add_handle q h').
  { rewrite spec_run_snoc. cbn [spec_step]. unfold q_on. fold q. rewrite Hk. reflexivity. }
  exists (os ++ [OIncr k n]), i', (add_handle q h'). split; [exact Ei|]. split.
  { rewrite contract_app, Hc. cbn [contract andb]. unfold allowed. fold q. rewrite Hk, Hf, orb_true_r. reflexivity. }
  split; [symmetry; exact Eq|]. rewrite Es. split; [reflexivity|]. split; [reflexivity|]. split; [reflexivity|]. split; [exact Hd|].
  split.
  - exists (length (cl_its s)), h'. cbn [cl_its add_handle q_hs].
    pose proof (sim_its _ _ S) as Hl. fold s q in Hl.
    rewrite nth_error_app2 by lia. rewrite Nat.sub_diag. split; [reflexivity|].
    rewrite Hl, nth_error_app2 by lia. rewrite Nat.sub_diag. split; [reflexivity|]. split; [cbn; lia|].
    unfold h_fresh in *. cbn [h' h_end h_off q_dead add_handle q_begin]. destruct n as [|n].
    + rewrite Nat.add_0_r, andb_true_r. exact Hf.
    + cbn [Nat.eqb]. rewrite andb_false_r. cbn. apply orb_true_r.
  - intros j p. apply holds_add. exact (sim_its _ _ S).
Qed.

Lemma view_advance os ch q v lo hi n : view_at os ch q v lo hi ->
  exists os' q' v', v_advance ch v n = Ok v' /\ view_at os' ch q' v' (lo + n) hi /\
    q_begin q' = q_begin q /\ q_cells q' = q_cells q.
Proof.
  intros [Hc -> -> Ha Hb He].
  destruct (holds_incr os (v_begin v) lo n Hc Ha Hb) as (os' & i' & q' & Ei & Hc' & Eq & Ech & Eb & Ecs & Ed & Hh & Hk).
  exists os', q', (mkView i' (v_end v)). unfold v_advance. rewrite Ei. split; [reflexivity|]. split.
  - constructor; auto. cbn [v_end]. destruct (v_end v), hi; auto.
  - split; assumption.
Qed.

Lemma limit_size_ordered v n : (match v_end_off v with Some e => v_off v <= e < Z.to_nat (2 ^ 64) | None => True end) ->
  limit_size v n = match v_end_off v with Some e => Nat.min n (e - v_off v) | None => n end.
Proof.
  intros H. unfold limit_size. destruct (v_end_off v) as [e|]; [|reflexivity].
  rewrite Z.mod_small; [lia|]. split; [lia|]. destruct H as [H1 H2].
  apply Nat2Z.inj_lt in H2. rewrite Z2Nat.id in H2 by (apply Z.pow_nonneg; lia). lia.
Qed.

Lemma view_limit os ch q v lo hi n : view_at os ch q v lo hi -> q_begin q <= lo ->
  (match hi with Some e => lo <= e < Z.to_nat (2 ^ 64) | None => True end) ->
  exists os' q' v', v_limit ch v n = Ok v' /\
    view_at os' ch q' v' lo (Some (lo + match hi with Some e => Nat.min n (e - lo) | None => n end)) /\
    q_begin q' = q_begin q /\ q_cells q' = q_cells q.
Proof.
  intros Hv Hlo Hh. pose proof (view_facts _ _ _ _ _ _ Hv) as F. destruct Hv as [Hc -> -> Ha Hb He].
  set (m := match hi with Some e => Nat.min n (e - lo) | None => n end).
  destruct (holds_incr os (v_begin v) lo m Hc Ha Hb) as (os' & i' & q' & Ei & Hc' & Eq & Ech & Eb & Ecs & Ed & Hh' & Hk).
  exists os', q', (mkView (v_begin v) (Some i')). split.
  - unfold v_limit. rewrite limit_size_ordered; rewrite (vf_end _ _ _ _ _ F), (vf_off _ _ _ _ _ F); [|exact Hh].
    fold m. rewrite Ei. cbn [bind]. unfold v_static. rewrite ensure_ok; [reflexivity|apply (vf_valid _ _ _ _ _ F)|].
    unfold v_off. cbn [v_begin]. pose proof (vf_off _ _ _ _ _ F) as E. unfold v_off in E. rewrite E, <- (vf_hoff _ _ _ _ _ F). exact Hlo.
  - split; [|split; assumption]. constructor; cbn [v_begin v_end]; auto.
Qed.
