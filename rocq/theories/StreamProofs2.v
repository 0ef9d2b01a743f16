From Verif Require Import Base StreamModel StreamSpec StreamProofs.

(** *** Safety for arbitrary trims (programs without end() and reset()) *)
Definition no_end_reset (o : op) : bool := match o with OEnd | OReset => false | _ => true end.

Definition inv (s : client) : Prop :=
  ch_is_valid (cl_chain s) = true ->
  wf (cl_chain s) /\ Forall (fun i => it_ok (cl_chain s) (mkHandle (it_off i) false) i) (cl_its s).

Lemma inv_new : inv client_new.
Proof.
  intros _. destruct (sim_live _ _ sim_new eq_refl) as (W & _). split; [exact W|constructor].
Qed.

Lemma Forall_nth {A} (P : A -> Prop) l k x : Forall P l -> nth_error l k = Some x -> P x.
Proof. intros H E. rewrite Forall_forall in H. apply H. eapply nth_error_In; eauto. Qed.

Lemma inv_chain s ch' : inv s -> (ch_is_valid ch' = true -> ch_is_valid (cl_chain s) = true) ->
  (ch_is_valid (cl_chain s) = true -> wf (cl_chain s) -> ch_is_valid ch' = true ->
     wf ch' /\ forall h i, it_ok (cl_chain s) h i -> it_ok ch' h i) ->
  inv (mkClient ch' (cl_its s)).
Proof.
  intros I Hv Hw V. cbn [cl_chain cl_its] in *. specialize (Hv V). destruct (I Hv) as [W F].
  destruct (Hw Hv W V) as [W' K]. split; [exact W'|].
  rewrite Forall_forall in *. eauto.
Qed.

Lemma inv_append s p r : inv s ->
  (wf (cl_chain s) -> ch_state (cl_chain s) = SMutable ->
     exists ch', r = (ch', Ok tt) /\ appended (cl_chain s) ch' p) ->
  (ch_state (cl_chain s) <> SMutable ->
     exists ch', r = (ch', refusal (ch_state (cl_chain s))) /\ same_visible (cl_chain s) ch') ->
  inv (fst (with_chain s r)) /\ snd (with_chain s r) <> UB.
Proof.
  intros I Hok Href. destruct (ch_state (cl_chain s)) eqn:E.
  - assert (V : ch_is_valid (cl_chain s) = true) by (unfold ch_is_valid; rewrite E; reflexivity).
    destruct (I V) as [W F]. destruct (Hok W eq_refl) as (ch' & -> & AP). cbn. split; [|discriminate].
    apply inv_chain; auto. intros _ _ _. split; [apply AP|]. intros h i. apply (appended_it_ok _ _ p). exact AP.
  - destruct Href as (ch' & -> & SV); [discriminate|]. cbn. split; [|discriminate].
    assert (V : ch_is_valid (cl_chain s) = true) by (unfold ch_is_valid; rewrite E; reflexivity).
    apply inv_chain; auto. intros _ W _. split; [eapply same_visible_wf; eauto|].
    intros h i. apply sv_it_ok. exact SV.
  - destruct Href as (ch' & -> & SV); [discriminate|]. cbn. split; [|discriminate].
    intros V. cbn in V. unfold ch_is_valid in V. destruct SV as (SV & _). rewrite SV, E in V. discriminate.
Qed.

Lemma inv_add s i : inv s -> (ch_is_valid (cl_chain s) = true -> wf (cl_chain s) ->
   it_ok (cl_chain s) (mkHandle (it_off i) false) i) ->
  inv (mkClient (cl_chain s) (cl_its s ++ [i])).
Proof.
  intros I H V. cbn in *. destruct (I V) as [W F]. split; [exact W|].
  apply Forall_app. split; [exact F|]. constructor; [|constructor]. auto.
Qed.

Lemma it_ok_deref ch i : wf ch -> ch_is_valid ch = true -> it_ok ch (mkHandle (it_off i) false) i ->
  it_deref ch i = match (if ch_in_range ch (it_off i) then nth_error (cells (ch_chunks ch)) (it_off i - base ch) else None) with
                  | None => Throw InvalidIterator
                  | Some CGap => Throw MissingData
                  | Some (CByte b) => Ok b
                  end.
Proof.
  intros W V Hi.
  set (q := mkQueue (ch_hoff ch) (skipn (ch_hoff ch - base ch) (cells (ch_chunks ch))) false false stats0 []).
  rewrite (deref_ok ch _ i q W V eq_refl eq_refl eq_refl Hi eq_refl).
  unfold q_read. rewrite (q_get_in_range q ch _ W eq_refl eq_refl). reflexivity.
Qed.

Lemma inv_step s o : inv s -> no_end_reset o = true -> inv (fst (step s o)) /\ snd (step s o) <> UB.
Proof.
  intros I Ho.
  destruct o as [bs|bs|n|k| | | | | | |n|k n|k n|k|k|k| | | | ]; cbn [step]; try discriminate Ho.
  - destruct bs as [|b bs]; [cbn; split; [destruct s; exact I|discriminate]|].
    apply (inv_append s (PData (b :: bs))); auto.
    + intros W H. apply append_copy_ok; auto; congruence.
    + intros H. apply append_copy_refused; auto; congruence.
  - destruct bs as [|b bs]; [cbn; split; [destruct s; exact I|discriminate]|].
    apply (inv_append s (PData (b :: bs))); auto.
    + intros W H. apply append_nonowning_ok; auto; congruence.
    + intros H. apply append_nonowning_refused; auto; congruence.
  - destruct n as [|n]; [cbn; split; [destruct s; exact I|discriminate]|].
    apply (inv_append s (PGap (S n))); auto.
    + intros W H. apply append_gap_ok; auto; lia.
    + intros H. apply append_gap_refused; auto; lia.
  - unfold on_iter. destruct (nth_error (cl_its s) k) as [i|]; [|split; [exact I|discriminate]].
    unfold ch_trim_iter. destruct (ch_is_valid (cl_chain s)) eqn:V; cbn [negb].
    + destruct (I V) as [W F]. destruct (ch_trim_ok _ (it_off i) W V) as (ch' & -> & T). cbn. split; [|discriminate].
      apply inv_chain; auto. intros _ _ _. split; [apply T|]. intros h i'. apply (trimmed_it_ok _ _ _ _ _ T).
    + cbn. split; [destruct s; exact I|discriminate].
  - cbn. split; [|discriminate]. unfold ch_freeze. destruct (ch_state (cl_chain s)) eqn:E.
    all: try (destruct s; exact I).
    all: apply inv_chain; auto; [unfold ch_is_valid; rewrite E; auto|].
    all: intros _ W _; split; [destruct W; constructor; assumption|auto].
  - cbn. split; [|discriminate]. unfold ch_unfreeze. destruct (ch_state (cl_chain s)) eqn:E.
    all: try (destruct s; exact I).
    all: apply inv_chain; auto; [unfold ch_is_valid; rewrite E; auto|].
    all: intros _ W _; split; [destruct W; constructor; assumption|auto].
  - cbn. split; [|discriminate]. intros V. discriminate V.
  - unfold it_begin. destruct (ch_is_valid (cl_chain s)) eqn:V; cbn [negb with_iter fst snd]; split; auto; try discriminate.
    apply inv_add; auto. intros _ W. split; [reflexivity|]. cbn [it_chunk it_off h_end].
    destruct (ch_chunks (cl_chain s)) as [|c cs] eqn:Ec; [exact Logic.I|].
    left. exists c. pose proof (wf_hoff _ W) as Hh. rewrite Ec in Hh.
    split; [left; reflexivity|]. split; [reflexivity|exact Hh].
  - unfold it_at. destruct (ch_is_valid (cl_chain s)) eqn:V.
    + destruct (I V) as [W F]. rewrite (find_chunk_ok _ _ None W V Logic.I). cbn [bind with_iter fst snd].
      split; [|discriminate]. apply inv_add; auto. intros _ _.
      destruct (walk_it_ok (cl_chain s) n false W) as [H|H]; [exact H|discriminate].
    + unfold find_chunk. rewrite V. cbn. split; [exact I|discriminate].
  - unfold on_iter. destruct (nth_error (cl_its s) k) as [i|] eqn:Ek; [|split; [exact I|discriminate]].
    unfold it_incr. destruct n as [|n].
    + cbn. split; [|discriminate]. apply inv_add; auto. intros V W. destruct (I V) as [_ F].
      apply (Forall_nth _ _ _ _ F Ek).
    + destruct (ch_is_valid (cl_chain s)) eqn:V.
      * destruct (I V) as [W F].
        destruct (move_ok (cl_chain s) _ i (it_off i + S n) W V (Forall_nth _ _ _ _ F Ek) eq_refl) as (c & -> & Hi').
        cbn [bind with_iter fst snd]. split; [|discriminate]. apply inv_add; auto.
      * unfold move_chunk. rewrite V. cbn [bind with_iter fst snd]. split; [|discriminate].
        apply inv_add; auto. congruence.
  - unfold on_iter. destruct (nth_error (cl_its s) k) as [i|] eqn:Ek; [|split; [exact I|discriminate]].
    unfold it_decr. destruct (it_off i <? n); [cbn; split; [exact I|discriminate]|].
    destruct n as [|n].
    + cbn. split; [|discriminate]. apply inv_add; auto. intros V W. destruct (I V) as [_ F].
      apply (Forall_nth _ _ _ _ F Ek).
    + destruct (ch_is_valid (cl_chain s)) eqn:V.
      * destruct (I V) as [W F].
        destruct (move_ok (cl_chain s) _ i (it_off i - S n) W V (Forall_nth _ _ _ _ F Ek) eq_refl) as (c & -> & Hi').
        cbn [bind with_iter fst snd]. split; [|discriminate]. apply inv_add; auto.
      * unfold move_chunk. rewrite V. cbn [bind with_iter fst snd]. split; [|discriminate].
        apply inv_add; auto. congruence.
  - unfold on_iter. destruct (nth_error (cl_its s) k) as [i|] eqn:Ek; [|split; [exact I|discriminate]].
    cbn [fst snd]. split; [exact I|]. destruct (ch_is_valid (cl_chain s)) eqn:V.
    + destruct (I V) as [W F]. rewrite (it_ok_deref _ _ W V (Forall_nth _ _ _ _ F Ek)).
      destruct (if ch_in_range (cl_chain s) (it_off i) then _ else _) as [[b|]|]; discriminate.
    + unfold it_deref. rewrite V. discriminate.
  - unfold on_iter. destruct (nth_error (cl_its s) k) as [i|] eqn:Ek; [|split; [exact I|discriminate]].
    cbn [fst snd]. split; [exact I|]. unfold it_is_end. destruct (negb _); discriminate.
  - unfold on_iter. destruct (nth_error (cl_its s) k) as [i|] eqn:Ek; [|split; [exact I|discriminate]].
    cbn [fst snd]. split; [exact I|discriminate].
  - cbn [fst snd]. split; [exact I|]. unfold ch_size. destruct (_ <=? _); discriminate.
  - cbn [fst snd]. split; [exact I|discriminate].
  - cbn [fst snd]. split; [exact I|discriminate].
  - cbn [fst snd]. split; [exact I|discriminate].
Qed.

Lemma inv_run os : forall s, inv s -> forallb no_end_reset os = true ->
  inv (fst (run s os)) /\ ~ In UB (snd (run s os)).
Proof.
  induction os as [|o os IH]; intros s I Hf; [cbn; auto|].
  cbn [forallb] in Hf. apply andb_true_iff in Hf. destruct Hf as [Ho Hf].
  destruct (inv_step s o I Ho) as [I1 N1]. cbn [run]. destruct (step s o) as [s1 r]. cbn [fst snd] in *.
  destruct (IH s1 I1 Hf) as [I2 N2]. destruct (run s1 os) as [s2 rs]. cbn [fst snd] in *.
  split; [exact I2|]. intros [E|E]; congruence || auto.
Qed.

Lemma any_trim_safe os : forallb no_end_reset os = true -> ~ In UB (snd (run client_new os)).
Proof. intros H. apply (inv_run os client_new inv_new H). Qed.

Lemma spec_no_ub os : forall q, ~ In UB (snd (spec_run q os)).
Proof.
  induction os as [|o os IH]; intros q; [cbn; auto|]. cbn [spec_run].
  destruct (spec_step q o) as [q1 r] eqn:E. specialize (IH q1). destruct (spec_run q1 os) as [q2 rs].
  cbn [snd] in *. intros [Hr|Hr]; [|auto]. subst r.
  assert (H : snd (spec_step q o) = UB) by (rewrite E; reflexivity). clear E.
  destruct o; cbn [spec_step] in H; unfold q_on, q_append, q_new_handle, q_read in H;
    repeat match type of H with
    | context [match ?x with _ => _ end] => destruct x; cbn in H
    end; discriminate.
Qed.

Lemma stream_is_queue os : contract queue_new os = true ->
  snd (run client_new os) = snd (spec_run queue_new os).
Proof. intros H. apply (run_sim os _ _ sim_new H). Qed.

Lemma stream_safe os : contract queue_new os = true -> ~ In UB (snd (run client_new os)).
Proof. intros H. rewrite (stream_is_queue os H). apply spec_no_ub. Qed.

(** *** Trimming is permanent within the contract *)
Definition no_reset (o : op) : bool := match o with OReset => false | _ => true end.

Lemma spec_begin_mono q o : allowed q o = true -> no_reset o = true ->
  q_dead (fst (spec_step q o)) = true \/
  (q_dead q = false -> q_begin q <= q_begin (fst (spec_step q o))).
Proof.
  intros Ha Hn. destruct o; cbn [spec_step]; unfold q_on, q_append, q_new_handle;
    try discriminate Hn; try (right; intros; reflexivity).
  - destruct (map _ _); [right; auto|]. destruct (q_dead q); [right; auto|]. destruct (q_frozen q); right; auto.
  - destruct (map _ _); [right; auto|]. destruct (q_dead q); [right; auto|]. destruct (q_frozen q); right; auto.
  - destruct (repeat _ _); [right; auto|]. destruct (q_dead q); [right; auto|]. destruct (q_frozen q); right; auto.
  - cbn [allowed] in Ha. destruct (nth_error (q_hs q) k) as [h|]; [|right; auto].
    destruct (q_dead q) eqn:Hd; [left; exact Hd|]. destruct (q_cells q); [right; auto|].
    right. intros _. cbn in *. lia.
  - destruct (q_dead q); right; auto.
  - destruct (q_dead q); right; auto.
  - left. reflexivity.
  - destruct (q_dead q); right; auto.
  - destruct (q_dead q); right; auto.
  - destruct (q_dead q); right; auto.
  - destruct (nth_error (q_hs q) k); right; auto.
  - destruct (nth_error (q_hs q) k) as [h|]; [|right; auto]. destruct (h_off h <? n); right; auto.
  - destruct (nth_error (q_hs q) k); right; auto.
  - destruct (nth_error (q_hs q) k); right; auto.
  - destruct (nth_error (q_hs q) k); right; auto.
Qed.

Lemma spec_dead_stays q o : no_reset o = true -> q_dead q = true -> q_dead (fst (spec_step q o)) = true.
Proof.
  intros Hn Hd. destruct o; cbn [spec_step]; unfold q_on, q_append, q_new_handle; try discriminate Hn; rewrite ?Hd; auto.
  - destruct (map _ _); auto.
  - destruct (map _ _); auto.
  - destruct (repeat _ _); auto.
  - destruct (nth_error (q_hs q) k); auto.
  - destruct (nth_error (q_hs q) k); auto.
  - destruct (nth_error (q_hs q) k) as [h|]; auto. destruct (h_off h <? n); auto.
  - destruct (nth_error (q_hs q) k); auto.
  - destruct (nth_error (q_hs q) k); auto.
  - destruct (nth_error (q_hs q) k); auto.
Qed.

Lemma spec_hs_keep q o k h : nth_error (q_hs q) k = Some h -> nth_error (q_hs (fst (spec_step q o))) k = Some h.
Proof.
  assert (Hadd : forall h', nth_error (q_hs q) k = Some h -> nth_error (q_hs q ++ [h']) k = Some h).
  { intros h' H. rewrite nth_error_app1; [exact H|]. apply nth_error_lt in H. exact H. }
  intros H. destruct o; cbn [spec_step]; unfold q_on, q_append, q_new_handle;
    repeat match goal with |- context [match ?x with _ => _ end] => destruct x; cbn end; auto.
Qed.

Lemma spec_gone_run os : forall q h, contract q os = true -> forallb no_reset os = true ->
  (q_dead q = true \/ h < q_begin q) ->
  let q' := fst (spec_run q os) in q_dead q' = true \/ h < q_begin q'.
Proof.
  induction os as [|o os IH]; intros q h Hc Hn Hg; [exact Hg|].
  cbn [contract forallb] in *. apply andb_true_iff in Hc, Hn. destruct Hc as [Ha Hc], Hn as [Hn1 Hn2].
  cbn [spec_run]. destruct (spec_step q o) as [q1 r] eqn:E.
  assert (Hg1 : q_dead q1 = true \/ h < q_begin q1).
  { replace q1 with (fst (spec_step q o)) by (rewrite E; reflexivity).
    destruct Hg as [Hd|Hlt].
    - left. apply spec_dead_stays; assumption.
    - destruct (spec_begin_mono q o Ha Hn1) as [H|H]; [left; exact H|].
      destruct (q_dead q) eqn:Hd; [left; apply spec_dead_stays; assumption|]. right. specialize (H eq_refl). lia. }
  specialize (IH q1 h Hc Hn2 Hg1). destruct (spec_run q1 os). exact IH.
Qed.

Lemma run_app s os1 os2 : fst (run s (os1 ++ os2)) = fst (run (fst (run s os1)) os2).
Proof.
  revert s; induction os1 as [|o os1 IH]; intros s; [reflexivity|]. cbn [app run].
  destruct (step s o) as [s1 r]. specialize (IH s1).
  destruct (run s1 (os1 ++ os2)), (run s1 os1). exact IH.
Qed.
Lemma spec_run_app q os1 os2 : fst (spec_run q (os1 ++ os2)) = fst (spec_run (fst (spec_run q os1)) os2).
Proof.
  revert q; induction os1 as [|o os1 IH]; intros q; [reflexivity|]. cbn [app spec_run].
  destruct (spec_step q o) as [q1 r]. specialize (IH q1).
  destruct (spec_run q1 (os1 ++ os2)), (spec_run q1 os1). exact IH.
Qed.
Lemma contract_app q os1 os2 : contract q (os1 ++ os2) = contract q os1 && contract (fst (spec_run q os1)) os2.
Proof.
  revert q; induction os1 as [|o os1 IH]; intros q; [reflexivity|]. cbn [app contract spec_run].
  destruct (spec_step q o) as [q1 r]. cbn [fst]. rewrite IH. destruct (spec_run q1 os1). rewrite andb_assoc. reflexivity.
Qed.

(** [start s] is what [Stream::begin().offset()] returns. *)
Definition start (s : client) : nat := ch_hoff (cl_chain s).

Lemma trim_permanent os1 os2 o : contract queue_new (os1 ++ os2) = true -> forallb no_reset os2 = true ->
  o < start (fst (run client_new os1)) ->
  it_deref (cl_chain (fst (run client_new (os1 ++ os2)))) (mkIter o None) = Throw InvalidIterator.
Proof.
  intros Hc Hn Ho. unfold start in Ho. pose proof Hc as Hc0. rewrite contract_app in Hc.
  apply andb_true_iff in Hc. destruct Hc as [Hc1 Hc2].
  destruct (run_sim os1 _ _ sim_new Hc1) as [S1 _].
  destruct (run_sim (os1 ++ os2) _ _ sim_new Hc0) as [S2 _].
  assert (Hg : q_dead (fst (spec_run queue_new (os1 ++ os2))) = true \/ o < q_begin (fst (spec_run queue_new (os1 ++ os2)))).
  { rewrite spec_run_app. apply spec_gone_run; [exact Hc2|exact Hn|].
    destruct (q_dead (fst (spec_run queue_new os1))) eqn:Hd; [left; reflexivity|right].
    destruct (sim_live _ _ S1 Hd) as (_ & -> & _). exact Ho. }
  set (s := fst (run client_new (os1 ++ os2))) in *. set (q := fst (spec_run queue_new (os1 ++ os2))) in *.
  unfold it_deref. rewrite (sim_valid _ _ S2). destruct (q_dead q) eqn:Hd; [reflexivity|]. cbn [negb].
  destruct Hg as [Hg|Hg]; [discriminate|]. destruct (sim_live _ _ S2 Hd) as (_ & E1 & _).
  unfold ch_in_range. cbn [it_off]. destruct (Nat.leb_spec (ch_hoff (cl_chain s)) o); [lia|]. reflexivity.
Qed.

(** *** Frozen streams *)
Lemma frozen_append ch bs : ch_is_frozen ch = true -> bs <> [] ->
  (exists ch', append_copy ch bs = (ch', Throw Frozen) /\
     ch_state ch' = ch_state ch /\ ch_chunks ch' = ch_chunks ch /\ ch_hoff ch' = ch_hoff ch /\ ch_stats ch' = ch_stats ch) /\
  (exists ch', append_nonowning ch bs = (ch', Throw Frozen) /\
     ch_state ch' = ch_state ch /\ ch_chunks ch' = ch_chunks ch /\ ch_hoff ch' = ch_hoff ch /\ ch_stats ch' = ch_stats ch).
Proof.
  intros H Hb. unfold ch_is_frozen in H. destruct (ch_state ch) eqn:E; try discriminate.
  split.
  - destruct (append_copy_refused ch bs) as (ch' & -> & A & B & C & D & _); [congruence|assumption|].
    rewrite E. eexists. split; [reflexivity|]. repeat split; congruence.
  - destruct (append_nonowning_refused ch bs) as (ch' & -> & A & B & C & D & _); [congruence|assumption|].
    rewrite E. eexists. split; [reflexivity|]. repeat split; congruence.
Qed.
Lemma frozen_gap ch n : ch_is_frozen ch = true -> 0 < n ->
  exists ch', append_gap ch n = (ch', Throw Frozen) /\
     ch_state ch' = ch_state ch /\ ch_chunks ch' = ch_chunks ch /\ ch_hoff ch' = ch_hoff ch /\ ch_stats ch' = ch_stats ch.
Proof.
  intros H Hb. unfold ch_is_frozen in H. destruct (ch_state ch) eqn:E; try discriminate.
  destruct (append_gap_refused ch n) as (ch' & -> & A & B & C & D & _); [congruence|assumption|].
  rewrite E. eexists. split; [reflexivity|]. repeat split; congruence.
Qed.

Definition thaws (o : op) : bool := match o with OUnfreeze | ODestroy | OReset => true | _ => false end.

Lemma append_chunk_state ch c : ch_state (fst (append_chunk ch c)) = ch_state ch.
Proof. unfold append_chunk. destruct (ch_state ch) eqn:E; cbn; congruence. Qed.
Lemma append_copy_state ch bs : ch_state (fst (append_copy ch bs)) = ch_state ch.
Proof. unfold append_copy. destruct bs; [reflexivity|]. destruct (ch_cached ch); [destruct (_ <=? _)|]; rewrite append_chunk_state; reflexivity. Qed.
Lemma append_nonowning_state ch bs : ch_state (fst (append_nonowning ch bs)) = ch_state ch.
Proof. unfold append_nonowning. destruct bs; [reflexivity|]. destruct (ch_cached ch); [destruct (negb _)|]; rewrite append_chunk_state; reflexivity. Qed.
Lemma append_gap_state ch n : ch_state (fst (append_gap ch n)) = ch_state ch.
Proof. unfold append_gap. destruct n; [reflexivity|]. rewrite append_chunk_state. reflexivity. Qed.
Lemma trim_state ch o : ch_state (fst (ch_trim ch o)) = ch_state ch.
Proof.
  unfold ch_trim. destruct (negb _); [reflexivity|]. destruct (ch_chunks ch) as [|c cs]; [reflexivity|].
  destruct (o <? c_off c); [reflexivity|]. destruct (trim_loop _ _ _) as [[cs' k]|]; reflexivity.
Qed.

Lemma with_iter_chain s r : cl_chain (fst (with_iter s r)) = cl_chain s.
Proof. destruct r; reflexivity. Qed.

Lemma frozen_until s o : ch_is_frozen (cl_chain s) = true -> thaws o = false ->
  ch_is_frozen (cl_chain (fst (step s o))) = true.
Proof.
  intros H Ht.
  assert (HS : forall ch', ch_state ch' = ch_state (cl_chain s) -> ch_is_frozen ch' = true).
  { intros ch' E. unfold ch_is_frozen in *. rewrite E. exact H. }
  destruct o; cbn [step]; try discriminate Ht; unfold on_iter;
    try (destruct (nth_error (cl_its s) k); [|exact H]);
    rewrite ?with_iter_chain; try exact H; cbn [fst with_chain cl_chain].
  - apply HS, append_copy_state.
  - apply HS, append_nonowning_state.
  - apply HS, append_gap_state.
  - apply HS. unfold ch_trim_iter. destruct (negb _); [reflexivity|apply trim_state].
  - unfold ch_freeze. unfold ch_is_frozen in *. destruct (ch_state (cl_chain s)); try discriminate. reflexivity.
Qed.

(** *** Statistics *)
Definition tally (st : stats) (x : op * res value) : stats :=
  match x with
  | (OAppend (b :: bs), Ok _) | (OAppendNonOwning (b :: bs), Ok _) =>
      mkStats (num_data_bytes st + length (b :: bs)) (num_data_chunks st + 1) (num_gap_bytes st) (num_gap_chunks st)
  | (OGap (S n), Ok _) =>
      mkStats (num_data_bytes st) (num_data_chunks st) (num_gap_bytes st + S n) (num_gap_chunks st + 1)
  | _ => st
  end.
Definition keeps_object (o : op) : bool := match o with ODestroy | OReset => false | _ => true end.

Lemma append_chunk_stats ch c :
  ch_stats (fst (append_chunk ch c)) =
  match snd (append_chunk ch c) with Ok _ => stats_add (ch_stats ch) c | _ => ch_stats ch end.
Proof. unfold append_chunk. destruct (ch_state ch); reflexivity. Qed.

Lemma append_chunk_res ch c : snd (append_chunk ch c) = refusal (ch_state ch).
Proof. unfold append_chunk. destruct (ch_state ch); reflexivity. Qed.

Lemma step_stats s o : keeps_object o = true ->
  ch_stats (cl_chain (fst (step s o))) = tally (ch_stats (cl_chain s)) (o, snd (step s o)).
Proof.
  intros Hk. destruct o; cbn [step]; try discriminate Hk; unfold on_iter;
    try (destruct (nth_error (cl_its s) k); [|reflexivity]);
    rewrite ?with_iter_chain; try reflexivity; cbn [fst snd with_chain cl_chain].
  - unfold append_copy. destruct bs as [|b bs]; [reflexivity|].
    destruct (ch_cached _); [destruct (_ <=? _)|]; rewrite append_chunk_stats, append_chunk_res; cbn [tally rmap refusal];
      cbn [ch_state take_fresh drop_cached]; destruct (ch_state (cl_chain s)); cbn; unfold stats_add; cbn; f_equal; lia.
  - unfold append_nonowning. destruct bs as [|b bs]; [reflexivity|].
    destruct (ch_cached _); [destruct (negb _)|]; rewrite append_chunk_stats, append_chunk_res; cbn [tally rmap refusal];
      cbn [ch_state take_fresh drop_cached]; destruct (ch_state (cl_chain s)); cbn; unfold stats_add; cbn; f_equal; lia.
  - unfold append_gap. destruct n as [|n]; [reflexivity|].
    rewrite append_chunk_stats, append_chunk_res; cbn [tally rmap refusal];
      cbn [ch_state take_fresh drop_cached]; destruct (ch_state (cl_chain s)); cbn; unfold stats_add; cbn; f_equal; lia.
  - unfold ch_trim_iter, ch_trim. cbn [tally]. destruct (negb _); [reflexivity|].
    destruct (ch_chunks (cl_chain s)) as [|c cs]; [reflexivity|].
    destruct (_ <? c_off c); [reflexivity|]. destruct (trim_loop _ _ _) as [[cs' k']|]; reflexivity.
  - unfold ch_freeze. destruct (ch_state _); reflexivity.
  - unfold ch_unfreeze. destruct (ch_state _); reflexivity.
Qed.

Lemma run_stats os : forall s, forallb keeps_object os = true ->
  ch_stats (cl_chain (fst (run s os))) = fold_left tally (combine os (snd (run s os))) (ch_stats (cl_chain s)).
Proof.
  induction os as [|o os IH]; intros s H; [reflexivity|].
  cbn [forallb] in H. apply andb_true_iff in H. destruct H as [Hk H]. cbn [run].
  pose proof (step_stats s o Hk) as Hs. destruct (step s o) as [s1 r]. cbn [fst snd] in Hs.
  specialize (IH s1 H). destruct (run s1 os) as [s2 rs]. cbn [fst snd combine fold_left] in *.
  rewrite <- Hs. exact IH.
Qed.

(** *** Copying *)
Lemma copy_loop_ok cs : forall n b, wf n -> ch_state n = SMutable ->
  contig b cs ->
  exists n', copy_loop n cs = (n', Ok tt) /\ wf n' /\ ch_state n' = SMutable /\ ch_hoff n' = ch_hoff n /\
    base n' = base n /\ cells (ch_chunks n') = cells (ch_chunks n) ++ cells cs.
Proof.
  induction cs as [|c cs IH]; intros n b W Hst Hc.
  - exists n. cbn. rewrite app_nil_r. auto 10.
  - cbn [contig] in Hc. destruct Hc as (H1 & H2 & H3). cbn [copy_loop].
    assert (Hc' : exists al off, (if c_is_owning c then c_copy (ch_fresh n) c else mkChunk (ch_fresh n) (c_off c) 0 (c_pay c))
                  = mkChunk (ch_fresh n) off al (c_pay c)).
    { unfold c_copy, c_make_owning. destruct (c_is_owning c); [|eauto].
      destruct (_ || _); cbn; eauto. }
    destruct Hc' as (al & off & ->).
    destruct (append_chunks (take_fresh n) (mkChunk (ch_fresh n) off al (c_pay c))) as (n1 & E & W1 & S1 & A & B & C & D & _).
    + apply wf_take_fresh. exact W.
    + exact H2.
    + cbn. lia.
    + cbn. intros Hin. apply (wf_ids _ W) in Hin. lia.
    + cbn. intros k Hk. destruct (wf_cached _ W k Hk). lia.
    + exact Hst.
    + rewrite E. destruct (IH n1 _ W1 S1 H3) as (n2 & E2 & W2 & S2 & A2 & B2 & C2).
      exists n2. rewrite E2, A2, B2, C2, A, B, C. rewrite cells_cons, app_assoc. auto 10.
Qed.

(** The content of a chain at an absolute offset: what dereferencing [at(o)] shows. *)
Definition content (ch : chain) (o : nat) : res byte := let* i := it_at ch o in it_deref ch i.

Lemma content_spec ch o : wf ch -> ch_is_valid ch = true ->
  content ch o = match (if ch_in_range ch o then nth_error (cells (ch_chunks ch)) (o - base ch) else None) with
                 | None => Throw InvalidIterator
                 | Some CGap => Throw MissingData
                 | Some (CByte b) => Ok b
                 end.
Proof.
  intros W V. unfold content, it_at. rewrite (find_chunk_ok _ _ None W V I). cbn [bind].
  rewrite it_ok_deref; auto. destruct (walk_it_ok ch o false W) as [H|H]; [exact H|discriminate].
Qed.

Lemma reach_wf os : contract queue_new os = true -> let ch := cl_chain (fst (run client_new os)) in
  ch_is_valid ch = true -> wf ch.
Proof.
  intros H ch V. destruct (run_sim os _ _ sim_new H) as [S _]. unfold ch in *.
  rewrite (sim_valid _ _ S) in V. apply negb_true_iff in V. apply (sim_live _ _ S V).
Qed.

Lemma chain_new_wf : wf chain_new.
Proof. apply (sim_live _ _ sim_new eq_refl). Qed.

(** A chunk-aligned start is the only case in which a copy shows the same bytes; its offsets always start at 0. *)
Lemma copy_aligned os ch : contract queue_new os = true -> ch = cl_chain (fst (run client_new os)) ->
  ch_is_valid ch = true -> ch_hoff ch = base ch ->
  exists n, ch_copy ch = Ok n /\ ch_hoff n = 0 /\ ch_end n = ch_end ch - ch_hoff ch /\
    ch_stats n = ch_stats ch /\
    forall o, ch_in_range ch o = true -> content n (o - ch_hoff ch) = content ch o.
Proof.
  intros Hc Hch V Hal. assert (W : wf ch) by (subst ch; apply reach_wf; assumption).
  unfold ch_copy. rewrite V. cbn [negb].
  destruct (copy_loop_ok (ch_chunks ch) chain_new (base ch) chain_new_wf eq_refl (wf_contig _ W))
    as (n & -> & Wn & Sn & An & Bn & Cn).
  eexists. split; [reflexivity|]. cbn [ch_hoff ch_stats]. cbn in An, Bn, Cn.
  set (n' := mkChain _ _ _ _ _ _).
  assert (Wn' : wf n') by (destruct Wn; constructor; assumption).
  assert (Bn' : base n' = 0) by exact Bn.
  assert (Hb' : ch_end n' = ch_end ch - ch_hoff ch).
  { rewrite (ch_end_eq _ (wf_contig _ Wn')), (ch_end_eq _ (wf_contig _ W)), Bn', Hal. cbn [ch_chunks n'].
    rewrite Cn. lia. }
  split; [exact An|]. split; [exact Hb'|]. split; [reflexivity|].
  intros o Ho. assert (Vn' : ch_is_valid n' = true) by (unfold ch_is_valid; cbn; rewrite Sn; reflexivity).
  rewrite (content_spec _ _ Wn' Vn'), (content_spec _ _ W V). rewrite Ho.
  unfold ch_in_range in *. rewrite Hb', Bn', Nat.sub_0_r, Hal in *. cbn [ch_hoff n'].
  replace (ch_hoff n <=? o - base ch) with true by lia.
  replace (o - base ch <? ch_end ch - base ch) with true by lia.
  cbn [andb ch_chunks n']. rewrite Cn. reflexivity.
Qed.

(** Every copy: the cells of the first chunk before the start come back, in front of the content. *)
Lemma copy_sim os ch q : contract queue_new os = true -> ch = cl_chain (fst (run client_new os)) -> q = fst (spec_run queue_new os) ->
  ch_is_valid ch = true ->
  exists n old, ch_copy ch = Ok n /\ (ch_hoff ch = base ch -> old = []) /\
    sim (mkClient n []) (mkQueue 0 (old ++ q_cells q) false false (q_stats q) []).
Proof.
  intros Hc Hch Hq V. destruct (run_sim os _ _ sim_new Hc) as [S _]. rewrite <- Hq in S.
  assert (D : q_dead q = false) by (subst ch; rewrite (sim_valid _ _ S) in V; apply negb_true_iff in V; exact V).
  destruct (sim_live _ _ S D) as (W & B & C & _). pose proof (sim_stats _ _ S) as St. rewrite <- Hch in *.
  unfold ch_copy. rewrite V. cbn [negb].
  destruct (copy_loop_ok (ch_chunks ch) chain_new (base ch) chain_new_wf eq_refl (wf_contig _ W))
    as (n & -> & Wn & Sn & An & Bn & Cn). cbn in An, Bn, Cn.
  eexists. exists (firstn (ch_hoff ch - base ch) (cells (ch_chunks ch))). split; [reflexivity|]. split.
  { intros E. replace (ch_hoff ch - base ch) with 0 by lia. reflexivity. }
  rewrite C, firstn_skipn. constructor; cbn; auto.
  - intros [|k] h i H; discriminate.
  - discriminate.
  - intros _. split; [destruct Wn; constructor; assumption|]. split; [symmetry; exact An|]. split.
    + rewrite <- Cn. rewrite An. reflexivity.
    + intros [|k] h i H; discriminate.
Qed.

Lemma begin_zero_aligned os ch q : contract queue_new os = true -> ch = cl_chain (fst (run client_new os)) -> q = fst (spec_run queue_new os) ->
  ch_is_valid ch = true -> q_begin q = 0 -> ch_hoff ch = base ch.
Proof.
  intros Hc Hch Hq V Z. destruct (run_sim os _ _ sim_new Hc) as [S _]. rewrite <- Hq in S.
  assert (D : q_dead q = false) by (subst ch; rewrite (sim_valid _ _ S) in V; apply negb_true_iff in V; exact V).
  destruct (sim_live _ _ S D) as (W & B & _). rewrite <- Hch in *. destruct (avail ch W). lia.
Qed.

Lemma from_bytes_sim bs : bs <> [] ->
  sim (mkClient (chain_of_bytes bs) []) (mkQueue 0 (map CByte bs) false false (mkStats (length bs) 1 0 0) []).
Proof.
  intros N. constructor; cbn; auto.
  - intros [|k] h i H; discriminate.
  - destruct bs; [congruence|reflexivity].
  - discriminate.
  - intros _. split.
    + constructor; cbn; auto.
      * split; [reflexivity|]. split; [destruct bs; [congruence|cbn; lia]|exact I].
      * constructor; [intros []|constructor].
      * intros id [<-|[]]. lia.
      * discriminate.
      * unfold c_end, c_size. cbn. destruct bs; [congruence|cbn; lia].
    + split; [reflexivity|]. split; [cbn; rewrite app_nil_r; reflexivity|]. intros [|k] h i H; discriminate.
Qed.

Lemma unfreeze_append ch bs : ch_is_valid ch = true -> snd (append_copy (ch_unfreeze (ch_freeze ch)) bs) = Ok tt.
Proof.
  intros V. unfold append_copy. destruct bs as [|b bs]; [reflexivity|].
  assert (E : ch_state (ch_unfreeze (ch_freeze ch)) = SMutable).
  { unfold ch_unfreeze, ch_freeze, ch_is_valid in *. destruct (ch_state ch) eqn:E; cbn; try discriminate; reflexivity. }
  destruct (ch_cached _); [destruct (_ <=? _)|]; rewrite append_chunk_res; cbn [ch_state drop_cached take_fresh]; rewrite E; reflexivity.
Qed.
