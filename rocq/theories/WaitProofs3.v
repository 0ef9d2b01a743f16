From Verif Require Import Base StreamModel StreamSpec StreamProofs StreamProofs2 ViewModel ViewSpec
  ViewProofs ViewProofs2 ViewProofs3 ViewProofs4 WaitModel WaitSpec WaitProofs WaitProofs2.

Lemma plain_add os o i' h' : contract queue_new os = true ->
  fst (run client_new (os ++ [o])) = mkClient (cl_chain (fst (run client_new os))) (cl_its (fst (run client_new os)) ++ [i']) ->
  fst (spec_run queue_new (os ++ [o])) = add_handle (fst (spec_run queue_new os)) h' ->
  (forall i p, plain os i p -> plain (os ++ [o]) i p) /\
  (h_end h' = false -> plain (os ++ [o]) i' (h_off h')) /\
  nth_error (cl_its (fst (run client_new (os ++ [o])))) (length (cl_its (fst (run client_new os)))) = Some i' /\
  nth_error (q_hs (fst (spec_run queue_new (os ++ [o])))) (length (cl_its (fst (run client_new os)))) = Some h'.
Proof.
  intros Hc Es Eq. destruct (run_sim os _ _ sim_new Hc) as [S _]. pose proof (sim_its _ _ S) as Hl.
  assert (A : nth_error (cl_its (fst (run client_new (os ++ [o])))) (length (cl_its (fst (run client_new os)))) = Some i').
  { rewrite Es. cbn [cl_its]. rewrite nth_error_app2 by lia. rewrite Nat.sub_diag. reflexivity. }
  assert (B : nth_error (q_hs (fst (spec_run queue_new (os ++ [o])))) (length (cl_its (fst (run client_new os)))) = Some h').
  { rewrite Eq. cbn [add_handle q_hs]. rewrite Hl, nth_error_app2 by lia. rewrite Nat.sub_diag. reflexivity. }
  split; [|split; [|split; assumption]].
  - intros i p (k & h & Hk & Hh & Ho & Hf). exists k, h. rewrite Es, Eq. cbn [cl_its add_handle q_hs].
    rewrite !nth_error_app1 by (apply nth_error_Some; congruence). auto.
  - intros He. eexists _, _. split; [exact A|]. split; [exact B|]. auto.
Qed.

Section Frames.
Context {X : list frame}.
Local Notation pin := (pin (X := X)).

Lemma advance_pin trim n v ch sched D closed lo hi : pin v ch sched D closed lo hi ->
  (n <= v_size ch v \/ (hi = None /\ ch_is_frozen ch = true)) ->
  exists v' ch', advance_input trim n v ch sched = Finished (Ok v') ch' sched /\
    pin v' ch' sched (skipn n D) closed (lo + n) hi /\
    (n <= v_size ch v -> v_size ch' v' = v_size ch v - n).
Proof.
  intros I Hn. pose proof (pin_now _ _ _ _ _ _ _ I) as (_ & _ & _ & _ & _).
  destruct I as (os & q & P & ED & Ec & T). pose proof P as [Hc Hch Hq Ha (k & h & Hk & Hh & Hoff & Hf) He Hi Hbe Hor Hsm].
  pose proof (pv_view _ _ _ _ _ _ P) as V. pose proof (view_facts _ _ _ _ _ _ V) as F.
  pose proof (size_window _ _ _ _ _ _ V Hi Hor) as Sz.
  assert (Hx : lo + n <= q_end q \/ q_frozen q = true).
  { destruct Hn as [Hn|[_ Hn]]; [|right; rewrite <- (vf_frozen _ _ _ _ _ F); exact Hn].
    rewrite Sz, (window_length q lo hi Hi) in Hn. destruct Hbe as [Hbe|Hbe]; [left|right; exact Hbe]. destruct hi; lia. }
  assert (Hor' : ordered (lo + n) hi).
  { rewrite Sz, (window_length q lo hi Hi) in Hn. destruct hi as [e|]; [|exact I]. cbn [ordered] in *.
    destruct Hn as [Hn|[Hn _]]; [lia|discriminate]. }
  set (s := fst (run client_new os)) in *.
  assert (G : good (cl_chain s) (v_begin v) /\ it_off (v_begin v) = lo).
  { destruct (run_sim os _ _ sim_new Hc) as [S _]. rewrite Hq in Ha.
    apply (holds_good _ _ _ _ S Ha). apply plain_holds. exists k, h. auto. }
  destruct G as [G Go].
  set (i' := match n with 0 => v_begin v | _ => exact_it (cl_chain s) (it_off (v_begin v) + n) end).
  assert (Ei : it_incr ch (v_begin v) n = Ok i').
  { rewrite Hch. rewrite Hch in F. apply it_incr_exact; [apply F|apply F|exact G]. }
  set (h' := mkHandle (h_off h + n) (h_end h && (n =? 0))).
  assert (Es : fst (run client_new (os ++ [OIncr k n])) = mkClient (cl_chain s) (cl_its s ++ [i'])).
  { rewrite run_snoc. cbn [step]. unfold on_iter. fold s. rewrite Hk. rewrite <- Hch, Ei. unfold with_iter. fold s. rewrite <- Hch. reflexivity. }
  assert (Eq : fst (spec_run queue_new (os ++ [OIncr k n])) = add_handle q h').
  { rewrite spec_run_snoc. cbn [spec_step]. unfold q_on. rewrite <- Hq in *. rewrite Hh. reflexivity. }
  assert (Hc1 : contract queue_new (os ++ [OIncr k n]) = true).
  { rewrite contract_app, Hc. cbn [contract andb]. unfold allowed. rewrite <- Hq in *. rewrite Hh. unfold h_fresh. rewrite Hf. cbn.
    rewrite !orb_true_r. reflexivity. }
  rewrite Hq in Eq.
  destruct (plain_add os (OIncr k n) i' h' Hc Es Eq) as (Pl & Pn & Nk & Nh). rewrite <- Hq in *. fold s in Nk, Nh.
  assert (Pn' : plain (os ++ [OIncr k n]) i' (lo + n)).
  { rewrite <- Hoff. apply Pn. cbn. rewrite Hf. reflexivity. }
  assert (Hile : q_begin q <= lo + n) by (clear -Hi; lia).
  set (os1 := os ++ [OIncr k n]) in *.
  set (v' := mkView i' (v_end v)).
  assert (P1 : parsing_view os1 ch (add_handle q h') v' (lo + n) hi).
  { constructor; auto; try (symmetry; exact Eq); try (rewrite Es; exact Hch).
    - cbn [v_end v']. destruct (v_end v), hi; auto. }
  assert (Ea : v_advance ch v n = Ok v') by (unfold v_advance; rewrite Ei; reflexivity).
  assert (Win : forall sch, window (at_end (add_handle q h') sch) (lo + n) hi = skipn n (window (at_end q sch) lo hi) /\
    over (at_end (add_handle q h') sch) hi = over (at_end q sch) hi).
  { intros sch. pose proof (at_end_rel q sch Ha) as R. pose proof (at_end_rel (add_handle q h') sch Ha) as R'.
    cbn [add_handle q_frozen] in R'. destruct R as [r_b r_c r_f r_d r_h], R' as [s_b s_c s_f s_d s_h].
    cbn [add_handle q_begin q_cells] in s_b, s_c. split.
    - rewrite <- window_skip by (rewrite r_b; exact Hi). apply window_same; congruence.
    - unfold over, q_end. rewrite s_f, s_b, s_c, r_f, r_b, r_c. reflexivity. }
  assert (Win' : forall sch x hi', window (at_end (add_handle q h') sch) x hi' = window (at_end q sch) x hi' /\
    over (at_end (add_handle q h') sch) hi' = over (at_end q sch) hi').
  { intros sch x hi'. pose proof (at_end_rel q sch Ha) as R. pose proof (at_end_rel (add_handle q h') sch Ha) as R'.
    cbn [add_handle q_frozen] in R'. destruct R as [r_b r_c r_f r_d r_h], R' as [s_b s_c s_f s_d s_h].
    cbn [add_handle q_begin q_cells] in s_b, s_c. split.
    - apply window_same; congruence.
    - unfold over, q_end. rewrite s_f, s_b, s_c, r_f, r_b, r_c. reflexivity. }
  unfold advance_input. rewrite Ea. destruct trim.
  - (* with trimming *)
    set (kk := length (cl_its s)) in *.
    set (q1 := add_handle q h') in *.
    assert (Al : allowed q1 (OTrim kk) = true).
    { cbn [allowed]. rewrite Eq in Nh. rewrite Nh. cbn. apply orb_true_iff. right. apply Nat.leb_le. rewrite Hoff. exact Hile. }
    assert (Hc2 : contract queue_new (os1 ++ [OTrim kk]) = true).
    { rewrite contract_app, Hc1, Eq. cbn [contract andb]. rewrite Al. reflexivity. }
    destruct (run_sim os1 _ _ sim_new Hc1) as [S1 _]. rewrite Es, Eq in S1.
    destruct (sim_step _ _ (OTrim kk) S1 Al) as [_ Er].
    assert (Nk' : nth_error (cl_its s ++ [i']) kk = Some i') by (rewrite Es in Nk; exact Nk).
    assert (Nh' : nth_error (q_hs q1) kk = Some h') by (rewrite Eq in Nh; exact Nh).
    cbn [step] in Er. unfold on_iter in Er. cbn [cl_its] in Er. rewrite Nk' in Er.
    unfold with_chain in Er. cbn [fst snd cl_its cl_chain] in Er. rewrite <- Hch in Er.
    cbn [spec_step] in Er. unfold q_on in Er. rewrite Nh' in Er. change (q_dead q1) with (q_dead q) in Er. rewrite Ha in Er.
    assert (Er' : snd (ch_trim_iter ch i') = Ok tt).
    { destruct (snd (ch_trim_iter ch i')) as [[]|e|]; [reflexivity| |];
        destruct (q_cells q1); cbn in Er; discriminate Er. }
    cbn [v_begin v']. rewrite Er'. cbn [rmap].
    exists v', (fst (ch_trim_iter ch i')). split; [reflexivity|].
    set (q2 := fst (spec_step q1 (OTrim kk))).
    assert (Eq2 : fst (spec_run queue_new (os1 ++ [OTrim kk])) = q2) by (rewrite spec_run_snoc, Eq; reflexivity).
    assert (Es2 : fst (run client_new (os1 ++ [OTrim kk])) = mkClient (fst (ch_trim_iter ch i')) (cl_its s ++ [i'])).
    { rewrite run_snoc, Es. cbn [step]. unfold on_iter. cbn [cl_its]. rewrite Nk'. cbn [cl_chain with_chain cl_its fst]. rewrite <- Hch. reflexivity. }
    assert (Hs2 : q_hs q2 = q_hs q1).
    { unfold q2. cbn [spec_step]. unfold q_on. rewrite Nh'. change (q_dead q1) with (q_dead q). rewrite Ha. destruct (q_cells q1); reflexivity. }
    assert (Pl2 : forall i p, plain os1 i p -> plain (os1 ++ [OTrim kk]) i p).
    { intros i p (k2 & h2 & A & B & C & E). exists k2, h2. rewrite Es2, Eq2, Hs2. rewrite Es in A. rewrite Eq in B. auto. }
    assert (Q2 : q_dead q2 = false /\ q_frozen q2 = q_frozen q1 /\
      ((q_cells q1 = [] /\ q2 = q1) \/ (q_begin q2 = lo + n /\ q_cells q2 = skipn (lo + n - q_begin q) (q_cells q)))).
    { unfold q2. cbn [spec_step]. unfold q_on. rewrite Nh'. change (q_dead q1) with (q_dead q). rewrite Ha.
      destruct (q_cells q1) eqn:C; [auto|]. cbn. rewrite Ha. split; [reflexivity|]. split; [reflexivity|]. right.
      rewrite <- Hoff. split; [reflexivity|]. change (q_cells q1) with (q_cells q) in C. rewrite C. reflexivity. }
    destruct Q2 as (D2 & F2 & Q2).
    assert (P2 : parsing_view (os1 ++ [OTrim kk]) (fst (ch_trim_iter ch i')) q2 v' (lo + n) hi).
    { constructor; [exact Hc2|rewrite Es2; reflexivity|symmetry; exact Eq2|exact D2|apply Pl2, Pn'| | | |exact Hor'|exact Hsm].
      - cbn [v_end v']. destruct (v_end v), hi; auto.
      - destruct Q2 as [[_ ->]|[-> _]]; [exact Hile|apply le_n].
      - rewrite F2. cbn [q1 add_handle q_frozen]. destruct Hx as [Hx|Hx]; [left|right; exact Hx].
        destruct Q2 as [[_ ->]|[A B]]; [exact Hx|]. unfold q_end. rewrite A, B, skipn_length. clear -Hx. unfold q_end in Hx. lia. }
    assert (Win2 : forall sch, window (at_end q2 sch) (lo + n) hi = skipn n (window (at_end q sch) lo hi) /\
       over (at_end q2 sch) hi = over (at_end q sch) hi).
    { intros sch. destruct (Win sch) as [W1 W2]. destruct Q2 as [[_ ->]|[A B]]; [auto|].
      destruct (trim_at_end q1 q2 (lo + n) sch hi) as [T1 T2]; auto.
      rewrite T1, T2. auto. }
    assert (Win3 : forall sch x hi', lo + n <= x -> window (at_end q2 sch) x hi' = window (at_end q sch) x hi' /\
       over (at_end q2 sch) hi' = over (at_end q sch) hi').
    { intros sch x hi' Lx. destruct (Win' sch x hi') as [W1 W2]. destruct Q2 as [[_ ->]|[A B]]; [auto|].
      destruct (trim_at_end q1 q2 (lo + n) sch hi') as [T1 T2]; auto.
      rewrite T2. split; [|exact W2]. rewrite <- W1. replace x with (lo + n + (x - (lo + n))) by (clear -Lx; lia).
      pose proof (at_end_rel q2 sch D2) as R2. pose proof (at_end_rel q1 sch Ha) as R1.
      rewrite (window_skip _ (lo + n)), (window_skip _ (lo + n)), T1; [reflexivity| |].
      - rewrite (hr_begin _ _ _ _ R1). exact Hile.
      - rewrite (hr_begin _ _ _ _ R2), A. apply le_n. }
    split.
    + eexists _, _. split; [exact P2|]. destruct (Win2 sched) as [W1 W2]. rewrite W1, W2, ED. split; [reflexivity|]. split; [exact Ec|].
      revert T. apply Forall_impl. intros f [A B C E]. constructor; auto.
      * unfold plain_end in *. destruct (fr_end f), (fr_hi f); auto.
      * intros x Hx'. rewrite (proj1 (Win3 sched x (fr_hi f) Hx')). apply C. clear -Hx'. lia.
      * rewrite (proj2 (Win3 sched (lo + n) (fr_hi f) (le_n _))). exact E.
    + intros Hle. rewrite (size_window _ _ _ _ _ _ (pv_view _ _ _ _ _ _ P2) (pv_inside _ _ _ _ _ _ P2) Hor'), Sz.
      destruct (Win2 []) as [W1 _]. change (at_end q2 []) with q2 in W1. change (at_end q []) with q in W1. rewrite W1.
      apply skipn_length.
  - exists v', ch. split; [reflexivity|]. split.
    + eexists _, _. split; [exact P1|]. destruct (Win sched) as [W1 W2]. rewrite W1, W2, ED. split; [reflexivity|]. split; [exact Ec|].
      revert T. apply Forall_impl. intros f [A B C E]. constructor; auto.
      * unfold plain_end in *. destruct (fr_end f), (fr_hi f); auto.
      * intros x Hx'. rewrite (proj1 (Win' sched x (fr_hi f))). apply C. clear -Hx'. lia.
      * rewrite (proj2 (Win' sched lo (fr_hi f))). exact E.
    + intros Hle. rewrite (size_window _ _ _ _ _ _ (pv_view _ _ _ _ _ _ P1) (pv_inside _ _ _ _ _ _ P1) Hor'), Sz.
      destruct (Win []) as [W1 _]. change (at_end (add_handle q h') []) with (add_handle q h') in W1. change (at_end q []) with q in W1. rewrite W1.
      apply skipn_length.
Qed.
End Frames.
