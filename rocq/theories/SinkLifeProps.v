(** Property C67: connecting units, closing, setting the initial sequence number. *)
From Verif Require Import Base BytesModel SinkModel SinkSpec SinkProps SinkLifeProofs.
Open Scope Z_scope.

(** C67. A closed sink is like a new one: whatever happened before, the same operations have the same outcome, and what is
    observed is added to what was observed before. The units connected before are disconnected. *)
Theorem C67_closed_is_new : forall ops s,
  match srun (OClose :: ops) s, srun ops sink0 with
  | SOk _ t, SOk _ t0 =>
      k_log t = k_log s ++ k_log t0 /\ k_units t = k_units t0 /\ k_closed t = k_closed s ++ k_units s ++ k_closed t0 /\
      sink_size t = sink_size t0 /\ sequence_number t = sequence_number t0
  | SCrash, SCrash => True
  | _, _ => False
  end.
Proof.
  intros ops s. change (srun (OClose :: ops) s) with (srun ops (do_close s)). rewrite close_frame, frame_run.
  destruct (srun ops sink0) as [[] t|e t|] eqn:E; cbn [rframe]; auto.
  - unfold frame, sink_size, sequence_number. cbn [k_units k_auto k_size k_init k_cur k_last k_trim k_chunks k_log k_closed]. rewrite app_assoc. auto.
  - revert E. clear. generalize sink0. induction ops as [|o ops IH]; intros s E; cbn [srun] in E; [discriminate|]. destruct (sstep o s); eauto. discriminate.
Qed.
Print Assumptions C67_closed_is_new.
Theorem C67_new_sink : k_units sink0 = [] /\ k_log sink0 = [] /\ sink_size sink0 = 0 /\ sequence_number sink0 = 0.
Proof. repeat split; reflexivity. Qed.

(** The initial sequence number cannot be changed once the position has moved: SinkError, and the sink is closed. *)
Theorem C67_initial_number_rejected : forall s q ops, sequence_number s <> u64 (k_init s) ->
  (exists s', sstep (OInitSeq q) s = SThrow SinkError s') /\ srun (OInitSeq q :: ops) s = srun (OClose :: ops) s.
Proof.
  intros s q ops H. cbn [srun sstep]. destruct (Z.eqb_spec (k_cur s) 0) as [E|E].
  - exfalso. apply H. unfold sequence_number. rewrite E, Z.add_0_r. reflexivity.
  - cbn [negb orb]. split; [eauto|reflexivity].
Qed.
Print Assumptions C67_initial_number_rejected.
(** Before any data (only connecting and switching automatic trimming), it can be set, repeatedly; the position is then there. *)
Theorem C67_initial_number_accepted : forall ops q, 0 <= q < 2 ^ 64 ->
  (forall o, In o ops -> match o with OConnect _ | OAutoTrim _ | OInitSeq _ => True | _ => False end) ->
  exists s s', srun ops sink0 = SOk tt s /\ sstep (OInitSeq q) s = SOk tt s' /\ sequence_number s' = q /\ k_units s' = k_units s.
Proof.
  intros ops q Q H.
  assert (G : forall ops s, k_cur s = 0 -> k_chunks s = [] -> (forall o, In o ops -> match o with OConnect _ | OAutoTrim _ | OInitSeq _ => True | _ => False end) ->
    exists t, srun ops s = SOk tt t /\ k_cur t = 0 /\ k_chunks t = []).
  { clear. induction ops as [|o ops IH]; intros s A B H; [exists s; auto|]. cbn [srun].
    assert (HO := H o (or_introl eq_refl)). assert (HR : forall o', In o' ops -> match o' with OConnect _ | OAutoTrim _ | OInitSeq _ => True | _ => False end) by (intros; apply H; right; auto).
    destruct o as [beh| | | | |b|q|]; try contradiction; cbn [sstep].
    - unfold do_connect. destruct (beh []); apply IH; auto.
    - apply IH; auto.
    - rewrite A, B. cbn. apply IH; auto. }
  destruct (G ops sink0 eq_refl eq_refl H) as (s & E & A & B). exists s. cbn [sstep]. rewrite A, B. cbn [Z.eqb negb orb].
  exists (set_init s q). split; [exact E|]. split; [reflexivity|]. split; [|reflexivity]. unfold sequence_number, set_init, u64. cbn [k_init k_cur]. rewrite A, Z.add_0_r. apply Z.mod_small. exact Q.
Qed.
Print Assumptions C67_initial_number_accepted.

(** A unit that fails when it is started is not connected, and nothing else changes. *)
Theorem C67_failing_unit_not_connected : forall beh s ops, beh [] = Failing ->
  (exists s', sstep (OConnect beh) s = SThrow RuntimeError s') /\ srun (OConnect beh :: ops) s = srun ops s.
Proof. intros beh s ops F. cbn [srun sstep]. unfold do_connect. rewrite F. split; [eauto|reflexivity]. Qed.
Print Assumptions C67_failing_unit_not_connected.
(** Any other unit is connected behind the units that are connected already. From then on, until the sink is closed, all units
    are given the pieces of data that are passed on, the new one starting with the first of them. *)
Theorem C67_connected_unit_gets_data : forall beh s ops t, beh [] <> Failing -> forallb data_op ops = true ->
  srun (OConnect beh :: ops) s = SOk tt t ->
  exists evs u, k_log t = k_log s ++ evs /\
    u_beh u = beh /\ u_in u = [] /\ u_skip u = false /\ (u_done u = true <-> beh [] = Completed) /\
    Forall2 (given (pieces evs)) (k_units s ++ [u]) (k_units t).
Proof.
  intros beh s ops t F D E.
  assert (G : forall ops s t, forallb data_op ops = true -> srun ops s = SOk tt t -> exists evs, k_log t = k_log s ++ evs /\ Forall2 (given (pieces evs)) (k_units s) (k_units t)).
  { clear. induction ops as [|o ops IH]; intros s t D E; cbn [srun forallb] in *.
    - assert (s = t) by congruence. subst. exists []. rewrite app_nil_r. split; [reflexivity|apply given_refl].
    - apply andb_true_iff in D. destruct D as [D1 D2]. pose proof (C20_step o s D1) as P. destruct (sstep o s) as [[] s1|e s1|]; [| |discriminate].
      + destruct P as (evs & A & B & _). destruct (IH s1 t D2 E) as (evs' & A' & B'). exists (evs ++ evs'). rewrite A', A, app_assoc. split; [reflexivity|]. rewrite pieces_app. eapply Forall2_comp; eauto.
      + destruct P as (evs & n & A & B & _). destruct (IH s1 t D2 E) as (evs' & A' & B'). exists (evs ++ evs'). rewrite A', A, app_assoc. split; [reflexivity|]. rewrite pieces_app. eapply Forall2_comp; eauto. }
  cbn [srun sstep] in E. unfold do_connect in E. destruct (beh []) eqn:Q; [| |congruence].
  - destruct (G _ _ _ D E) as (evs & A & B). exists evs, (mkUnit beh [] false false). cbn in *. repeat split; auto; discriminate.
  - destruct (G _ _ _ D E) as (evs & A & B). exists evs, (mkUnit beh [] false true). cbn in *. repeat split; auto; discriminate.
Qed.
Print Assumptions C67_connected_unit_gets_data.
Example C67_nonvacuous : exists t, srun [OConnect (u_beh reader); OWrite [1; 2] None None; OConnect (u_beh reader); OWrite [3] None None; OInitSeq 7; OWrite [9] None None] sink0 = SOk tt t /\
  map u_in (k_closed t) = [[[1; 2]; [3]]; [[3]]] /\ k_units t = [] /\ sequence_number t = 1.
Proof. eexists. split; [vm_compute; reflexivity|]. repeat split. Qed.
