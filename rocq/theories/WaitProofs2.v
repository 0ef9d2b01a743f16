From Verif Require Import Base StreamModel StreamSpec StreamProofs StreamProofs2 ViewModel ViewSpec
  ViewProofs ViewProofs2 ViewProofs3 ViewProofs4 WaitModel WaitSpec WaitProofs.

Lemma plain_holds os i o : plain os i o -> holds (fst (run client_new os)) (fst (spec_run queue_new os)) i o.
Proof.
  intros (k & h & Hi & Hh & Ho & He). exists k, h. repeat split; auto. unfold h_fresh. rewrite He. cbn. apply orb_true_r.
Qed.
Lemma pv_view os ch q v lo hi : parsing_view os ch q v lo hi -> view_at os ch q v lo hi.
Proof.
  intros [Hc -> -> Ha Hb He _ _ _ _]. constructor; auto using plain_holds.
  destruct (v_end v), hi; auto using plain_holds.
Qed.

Lemma at_end_rel q sched : q_dead q = false ->
  host_rel q (at_end q sched) (fst (produced (q_frozen q) (concat sched))) (snd (produced (q_frozen q) (concat sched))).
Proof. apply produced_rel. Qed.

Lemma produced_frozen_mono b : forall f, f = true -> snd (produced f b) = true.
Proof. intros f ->. rewrite frozen_produces_nothing. reflexivity. Qed.

Lemma fold_concat s : forall ch, fold_left apply_batch s ch = apply_batch ch (concat s).
Proof.
  induction s as [|b s IH]; intros ch; [reflexivity|]. cbn [fold_left concat]. rewrite IH. unfold apply_batch.
  rewrite fold_left_app. reflexivity.
Qed.

Lemma host_run os s : q_dead (fst (spec_run queue_new os)) = false ->
  fst (run client_new (os ++ host_ops s)) =
    mkClient (apply_batch (cl_chain (fst (run client_new os))) (concat s)) (cl_its (fst (run client_new os))) /\
  fst (spec_run queue_new (os ++ host_ops s)) = at_end (fst (spec_run queue_new os)) s /\
  (forall i o, plain os i o -> plain (os ++ host_ops s) i o).
Proof.
  intros Ha. pose proof (at_end_rel _ s Ha) as R.
  assert (Es : fst (run client_new (os ++ host_ops s)) =
    mkClient (apply_batch (cl_chain (fst (run client_new os))) (concat s)) (cl_its (fst (run client_new os)))) by (rewrite run_app; apply produce_run).
  assert (Eq : fst (spec_run queue_new (os ++ host_ops s)) = at_end (fst (spec_run queue_new os)) s) by (rewrite spec_run_app; reflexivity).
  split; [exact Es|]. split; [exact Eq|].
  intros i o (k & h & Hk & Hh & Ho & Hf). exists k, h. rewrite Es, Eq, (hr_hs _ _ _ _ R). auto.
Qed.

Lemma pv_batches os ch q v lo hi s : parsing_view os ch q v lo hi ->
  parsing_view (os ++ host_ops s) (fold_left apply_batch s ch) (at_end q s) v lo hi.
Proof.
  intros [Hc -> -> Ha Hb He Hi Hbe Hor Hsm]. rewrite fold_concat.
  pose proof (at_end_rel _ s Ha) as R. destruct (host_run os s Ha) as (Es & Eq & P).
  constructor; auto.
  - rewrite contract_app, Hc. apply produce_contract.
  - rewrite Es. reflexivity.
  - apply (hr_dead _ _ _ _ R).
  - destruct (v_end v), hi; auto.
  - rewrite (hr_begin _ _ _ _ R). exact Hi.
  - destruct Hbe as [Hbe|Hbe].
    + left. unfold q_end in *. rewrite (hr_cells _ _ _ _ R), (hr_begin _ _ _ _ R), app_length. lia.
    + right. rewrite (hr_frozen _ _ _ _ R). apply produced_frozen_mono. exact Hbe.
Qed.

(** A view of an enclosing parser that is not used at the moment: begins at [fr_at]; from [fr_lo] on, it covers [fr_D] once
    the schedule is over. *)
Record frame := mkFrame { fr_begin : iter; fr_at : nat; fr_end : option iter; fr_lo : nat; fr_hi : option nat; fr_D : list cell; fr_closed : bool }.
Definition plain_end (os : list op) (e : option iter) (hi : option nat) : Prop :=
  match e, hi with None, None => True | Some e, Some h => plain os e h | _, _ => False end.
Record tracked (os : list op) (q : queue) (sched : list batch) (lo : nat) (f : frame) : Prop := {
  tr_begin : plain os (fr_begin f) (fr_at f);
  tr_end : plain_end os (fr_end f) (fr_hi f);
  tr_data : forall x, lo <= x -> window (at_end q sched) x (fr_hi f) = skipn (x - fr_lo f) (fr_D f);
  tr_closed : over (at_end q sched) (fr_hi f) = fr_closed f }.

Section Frames.
Context {X : list frame}.

(** The parser's situation: everything it will see from now on. *)
Definition pin (v : view) (ch : chain) (sched : list batch) (D : list cell) (closed : bool) (lo : nat) (hi : option nat) : Prop :=
  exists os q, parsing_view os ch q v lo hi /\ D = window (at_end q sched) lo hi /\ closed = over (at_end q sched) hi /\
    Forall (tracked os q sched lo) X.

Lemma at_end_app q a b : at_end (at_end q a) b = at_end q (a ++ b).
Proof. unfold at_end, host_ops. rewrite concat_app, map_app, spec_run_app. reflexivity. Qed.

Lemma pin_batches v ch k sched D closed lo hi : pin v ch sched D closed lo hi ->
  pin v (fold_left apply_batch (firstn k sched) ch) (skipn k sched) D closed lo hi.
Proof.
  intros (os & q & P & -> & -> & T). eexists _, _. split; [apply pv_batches; exact P|].
  rewrite at_end_app, firstn_skipn. split; [reflexivity|]. split; [reflexivity|].
  pose proof P as [Hc _ Hq Ha _ _ _ _ _ _]. rewrite Hq in Ha. destruct (host_run os (firstn k sched) Ha) as (_ & _ & Pl).
  revert T. apply Forall_impl. intros f [A B C E]. constructor; auto.
  - unfold plain_end in *. destruct (fr_end f), (fr_hi f); auto.
  - intros x Hx. rewrite at_end_app, firstn_skipn. auto.
  - rewrite at_end_app, firstn_skipn. auto.
Qed.

(** What is there now is a prefix of all that will be there; if no more can come it is all. *)
Lemma grow_all q lo hi sched : q_dead q = false -> q_begin q <= lo -> lo <= q_end q \/ q_frozen q = true ->
  exists more, window (at_end q sched) lo hi = window q lo hi ++ more /\
    (over q hi = true -> more = [] /\ over (at_end q sched) hi = true).
Proof.
  intros Hd Hb Hbe. pose proof (at_end_rel q sched Hd) as R. destruct (q_frozen q) eqn:F.
  - rewrite frozen_produces_nothing in R. cbn [fst snd] in R. exists []. rewrite app_nil_r. split.
    + apply window_same; [apply R|]. rewrite (hr_cells _ _ _ _ R), app_nil_r. reflexivity.
    + intros _. split; [reflexivity|]. unfold over. rewrite (hr_frozen _ _ _ _ R). reflexivity.
  - destruct Hbe as [Hbe|]; [|discriminate].
    destruct (window_grow _ _ _ _ lo hi R Hb Hbe) as (more & E & Hm). exists more. split; [exact E|].
    intros Ho. split; [apply Hm; auto|]. unfold over in *. rewrite F in Ho. cbn [orb] in Ho. destruct hi as [h|]; [|discriminate].
    unfold q_end in *. rewrite (hr_cells _ _ _ _ R), (hr_begin _ _ _ _ R), app_length. apply Nat.leb_le in Ho.
    apply orb_true_iff. right. apply Nat.leb_le. lia.
Qed.

Record now (v : view) (ch : chain) (D w : list cell) (closed : bool) (lo : nat) (hi : option nat) : Prop := {
  nw_prefix : exists more, D = w ++ more;
  nw_size : v_size ch v = length w;
  nw_off : v_off v = lo }.

Lemma pin_now v ch sched D closed lo hi : pin v ch sched D closed lo hi ->
  exists os q, parsing_view os ch q v lo hi /\ now v ch D (window q lo hi) closed lo hi /\
    (over q hi = true -> window q lo hi = D /\ closed = true).
Proof.
  intros (os & q & P & -> & -> & _). exists os, q. split; [exact P|]. pose proof (pv_view _ _ _ _ _ _ P) as V.
  destruct (grow_all q lo hi sched (pv_alive _ _ _ _ _ _ P) (pv_inside _ _ _ _ _ _ P) (pv_before_end _ _ _ _ _ _ P)) as (more & E & Ho).
  split.
  - constructor; [exists more; exact E| |].
    + apply (size_window _ _ _ _ _ _ V (pv_inside _ _ _ _ _ _ P) (pv_ordered _ _ _ _ _ _ P)).
    + apply (vf_off _ _ _ _ _ (view_facts _ _ _ _ _ _ V)).
  - intros H. destruct (Ho H) as [-> ->]. rewrite E, app_nil_r. auto.
Qed.

(** Waiting: the three possible outcomes. *)
Lemma wait_cases min v ch sched D closed lo hi : pin v ch sched D closed lo hi ->
  (exists ch' rest, wm min v ch sched = Finished (Ok true) ch' rest /\ pin v ch' rest D closed lo hi /\
     reached min (v_size ch' v) = true /\ length rest <= length sched /\ (length rest = length sched -> ch' = ch /\ rest = sched)) \/
  (exists ch' rest, wm min v ch sched = Finished (Ok false) ch' rest /\ pin v ch' rest D closed lo hi /\
     v_size ch' v = length D /\ reached min (length D) = false /\ closed = true /\ length rest <= length sched /\
     (hi = None -> ch_is_frozen ch' = true)) \/
  (exists ch', wm min v ch sched = Suspended ch' /\ reached min (length D) = false /\ closed = false).
Proof.
  intros I. pose proof I as (os & q & P & ED & Ec & _). pose proof (pv_view _ _ _ _ _ _ P) as V.
  destruct (wm_first min v lo hi (pv_ordered _ _ _ _ _ _ P) sched os ch q V (pv_inside _ _ _ _ _ _ P))
    as [(k & Hk & Hj & Hs & Vk & Hbk & E)|[Hj E]].
  - pose proof (pin_batches _ _ k _ _ _ _ _ I) as Ik.
    change (after q sched k) with (at_end q (firstn k sched)) in *.
    pose proof (pv_batches _ _ _ _ _ _ (firstn k sched) P) as Pk.
    pose proof (size_window _ _ _ _ _ _ Vk Hbk (pv_ordered _ _ _ _ _ _ P)) as Sz.
    destruct (reached min (length (window (at_end q (firstn k sched)) lo hi))) eqn:R.
    + left. eexists _, _. split; [exact E|]. split; [exact Ik|]. split; [rewrite Sz; exact R|].
      rewrite skipn_length. split; [lia|]. intros L. replace k with 0 by lia. auto.
    + right. left. unfold stop_cond in Hs. rewrite R in Hs. cbn [orb] in Hs.
      destruct (grow_all (at_end q (firstn k sched)) lo hi (skipn k sched) (pv_alive _ _ _ _ _ _ Pk) Hbk (pv_before_end _ _ _ _ _ _ Pk)) as (more & G & Go).
      destruct (Go Hs) as [-> G2]. rewrite at_end_app, firstn_skipn in *. rewrite app_nil_r in G. rewrite <- ED in G.
      eexists _, _. split; [exact E|]. split; [exact Ik|]. split; [rewrite Sz, G; reflexivity|]. split; [rewrite G; exact R|].
      split; [rewrite Ec; exact G2|]. rewrite skipn_length. split; [lia|]. intros ->.
      rewrite (vf_frozen _ _ _ _ _ (view_facts _ _ _ _ _ _ Vk)). unfold over in Hs. rewrite orb_false_r in Hs. exact Hs.
  - right. right. eexists. split; [exact E|]. specialize (Hj (length sched) (le_n _)). unfold after in Hj. rewrite firstn_all in Hj.
    fold (at_end q sched) in Hj. unfold stop_cond in Hj. apply orb_false_iff in Hj. destruct Hj as [A B]. rewrite ED, Ec. auto.
Qed.

End Frames.

Lemma trim_at_end q q' x sched hi : q_dead q = false -> q_dead q' = false -> q_frozen q' = q_frozen q ->
  q_begin q <= x -> (x <= q_end q \/ q_frozen q = true) -> q_begin q' = x -> q_cells q' = skipn (x - q_begin q) (q_cells q) ->
  window (at_end q' sched) x hi = window (at_end q sched) x hi /\ over (at_end q' sched) hi = over (at_end q sched) hi.
Proof.
  intros Hd Hd' Hf Hx Hbe Eb Ec. pose proof (at_end_rel q sched Hd) as R. pose proof (at_end_rel q' sched Hd') as R'.
  rewrite Hf in R'. set (cs := fst (produced (q_frozen q) (concat sched))) in *. set (f := snd (produced (q_frozen q) (concat sched))) in *.
  assert (Hq : q_frozen q = true -> cs = [] /\ f = true) by (subst cs f; intros ->; rewrite frozen_produces_nothing; auto).
  clearbody cs f.
  destruct R as [r_b r_c r_f r_d r_h], R' as [s_b s_c s_f s_d s_h].
  split.
  - unfold window, q_end. rewrite r_b, r_c, s_b, s_c, Eb, Ec, Nat.sub_diag. cbn [skipn]. rewrite skipn_app.
    rewrite !app_length, skipn_length. destruct Hbe as [Hbe|Hbe].
    + unfold q_end in Hbe. replace (x - q_begin q - length (q_cells q)) with 0 by lia. cbn [skipn]. f_equal.
      destruct hi; lia.
    + destruct (Hq Hbe) as [-> _]. rewrite skipn_nil, !app_nil_r. cbn [length].
      destruct (Nat.le_gt_cases x (q_end q)) as [L|L]; unfold q_end in L.
      * f_equal. destruct hi; lia.
      * rewrite skipn_all2 by lia. rewrite !firstn_nil. reflexivity.
  - unfold over. rewrite r_f, s_f. destruct f eqn:F; [reflexivity|]. cbn [orb].
    destruct Hbe as [Hbe|Hbe]; [|destruct (Hq Hbe); discriminate].
    unfold q_end in *. rewrite r_b, r_c, s_b, s_c, Eb, Ec, !app_length, skipn_length. destruct hi as [h|]; [|reflexivity].
    f_equal. lia.
Qed.
