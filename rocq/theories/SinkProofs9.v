(** Which unit makes a write fail; a gap followed by a skip. *)
From Verif Require Import Base BytesModel SinkModel SinkSpec SinkProofs SinkProofs2 SinkProofs3 SinkProofs4 SinkProofs5 SinkProofs6 SinkProofs7.
Open Scope Z_scope.

(** A unit is done without having failed only if its parser completed. *)
Definition sane (u : sunit) : Prop := u_done u = true -> u_skip u = false -> u_beh u (u_in u) = Completed.
Lemma feed_sane d us : Forall sane us -> Forall sane (map (feed d) us).
Proof.
  induction 1 as [|u us H F IH]; cbn [map]; constructor; [|exact IH]. unfold feed. destruct (u_skip u) eqn:SK; [exact H|].
  destruct (u_beh u (u_in u ++ [d])) eqn:B; unfold sane; cbn; intros; congruence.
Qed.
Lemma passed_sane ds us us' : passed ds us us' -> Forall sane us -> Forall sane us'.
Proof. induction 1; auto. intros F. apply IHpassed, feed_sane, F. Qed.
Lemma passed_beh ds us us' : passed ds us us' -> map u_beh us' = map u_beh us.
Proof.
  intros P. apply passed_grow in P. induction P as [|u u' us us' G F IH]; [reflexivity|]. cbn [map]. rewrite IH. destruct G as (-> & _). reflexivity.
Qed.
Definition endless (u : sunit) : Prop := u_done u = false /\ forall ps, u_beh u ps <> Completed.
Lemma endless_run ops s e s' : Forall (fun o => data_op o = true) ops -> Forall endless (k_units s) -> sruns ops s = SThrow e s' ->
  forall u, In u (k_units s') -> u_done u = true -> u_skip u = false -> False.
Proof.
  intros F EN R u IN D SK. pose proof (sruns_eff ops s F) as H. rewrite R in H. destruct H as (evs & [_ P _ _ _ _]).
  assert (SA : Forall sane (k_units s')).
  { eapply passed_sane; [exact P|]. eapply Forall_impl; [|exact EN]. intros x (X & _) Y. congruence. }
  pose proof (passed_beh _ _ _ P) as BE.
  assert (IB : In (u_beh u) (map u_beh (k_units s))) by (rewrite <- BE; apply in_map; exact IN).
  apply in_map_iff in IB. destruct IB as (v & VB & VI). rewrite Forall_forall in EN, SA. destruct (EN v VI) as (_ & N).
  apply (N (u_in u)). rewrite VB. apply SA; assumption.
Qed.

Lemma in_order_data_op i gs : forall p, Forall (fun o => data_op o = true) (in_order i p gs).
Proof. induction gs as [|g gs IH]; intros p; cbn [in_order]; constructor; auto. Qed.

(** ** Gap and skip *)
Lemma sruns_app a : forall b s, sruns (a ++ b) s = sbind (sruns a s) (fun _ s' => sruns b s').
Proof.
  induction a as [|o a IH]; intros b s; cbn [app sruns]; [reflexivity|]. destruct (sstep o s); cbn [sbind]; auto.
Qed.
Definition gap_result (s0 : sink) (m : seqmap) (g n : Z) (x : sres unit) : Prop :=
  match x with
  | SOk _ s => exists bs, reads m (g + n) bs /\ m (g + n + blen bs) = None /\
      observed s = observed s0 ++ OMissing g n :: obs_data (g + n) bs /\ sequence_number s = u64 (k_init s0 + (g + n + blen bs))
  | SThrow e s => e = ParseError /\ (exists u, In u (k_units s) /\ u_done u = true /\ u_skip u = false)
  | SCrash => False
  end.
Lemma advance_obs m p os q g : no_gaps m -> advance m p os q g -> os = obs_data p (flat_map byte_of os).
Proof.
  intros NG A. induction A as [p E|p e E|p b os q g E A IH]; [reflexivity|exfalso; eapply NG; eauto|].
  cbn [flat_map byte_of app obs_data]. f_equal. exact IH.
Qed.
Lemma gap_skip auto i segs s n g : Wr auto i segs s -> front (known segs) g -> 0 < n -> g + n < 2 ^ 64 ->
  (forall p, g <= p < g + n -> known segs p = None) -> (forall a d, In (a, d) segs -> ~ (a < g + n < a + blen d)) ->
  gap_result s (known segs) g n (sruns [OGap (u64 (i + g)) n; OSkip (u64 (i + (g + n)))] s).
Proof.
  intros [(r & st & lv & V & M & G & F & _ & EXT) _] FG NP LB FREE NS. pose proof (front_unique _ _ _ F FG) as PG.
  assert (AD : admissible auto r (RGap g n)).
  { cbn [admissible]. rewrite M. repeat split; auto; lia. }
  pose proof (step_good _ _ _ _ _ _ _ V AD) as ST. change (call i (RGap g n)) with (OGap (u64 (i + g)) n) in ST. cbn [sruns].
  destruct (sstep (OGap (u64 (i + g)) n) s) as [u s1|e s1|]; cbn [good] in ST; cbn [sbind gap_result].
  2:{ destruct ST as [ST | (_ & _ & [])]. exact ST. }
  2: exact ST.
  destruct ST as (r1 & os1 & st1 & lv1 & S1 & V1 & OB1).
  inversion S1 as [os0 q gg ADV E1 E2|RG _ E1 E2]; subst; [|congruence]. cbn [target provide fst snd] in ADV.
  assert (MG : first_wins (r_map r) (gap_cells (r_pos r) n) (r_pos r) = Some (Missing (r_pos r + n))).
  { unfold first_wins. rewrite M, FREE by lia. unfold gap_cells. replace ((r_pos r <=? r_pos r) && (r_pos r <? r_pos r + n)) with true by lia. reflexivity. }
  inversion ADV as [p0 E0|p0 e0 E0|p0 b0 os0 q0 g0 E0 A0]; subst; [congruence| |congruence].
  rewrite MG in E0. injection E0 as <-. cbn [provide fst snd] in *.
  set (m1 := first_wins (r_map r) (gap_cells (r_pos r) n)) in *.
  assert (AD2 : admissible auto (mkR m1 ((r_pos r, r_pos r + n) :: r_ext r) (r_pos r + n) true) (RSkip (r_pos r + n))).
  { cbn [admissible r_pos r_ext]. split; [destruct F; lia|]. intros a b [[= <- <-] | IN]; [lia|].
    destruct (EXT _ _ IN) as (d & I1 & ->). apply NS. exact I1. }
  pose proof (step_good _ _ _ _ _ _ _ V1 AD2) as ST2. change (call i (RSkip (r_pos r + n))) with (OSkip (u64 (i + (r_pos r + n)))) in ST2.
  destruct (sstep (OSkip (u64 (i + (r_pos r + n)))) s1) as [u2 s2|e2 s2|]; cbn [good] in ST2; cbn [sbind gap_result].
  2:{ destruct ST2 as [ST2 | (_ & _ & [])]. exact ST2. }
  2: exact ST2.
  destruct ST2 as (r2 & os2 & st2 & lv2 & S2 & V2 & OB2).
  inversion S2 as [os0 q gg ADV2 E1 E2|RG NSK E1 E2]; subst; [|exfalso; exact NSK]. cbn [target provide fst snd r_map] in ADV2.
  assert (ADV3 : advance (known segs) (r_pos r + n) os2 q gg).
  { eapply advance_ext; [|exact ADV2]. intros x X. unfold m1, first_wins. rewrite M. destruct (known segs x) eqn:E; [reflexivity|].
    unfold gap_cells. replace ((r_pos r <=? x) && (x <? r_pos r + n)) with false by lia. reflexivity. }
  destruct (advance_bytes _ _ _ _ _ (known_no_gaps segs) ADV3) as (_ & Q & _ & B2 & B3).
  exists (flat_map byte_of os2). split; [exact B3|]. rewrite <- Q. split; [exact B2|]. split.
  - rewrite OB2, OB1, <- (advance_obs _ _ _ _ _ (known_no_gaps segs) ADV3). replace (r_pos r + n - r_pos r) with n by lia. rewrite <- app_assoc. reflexivity.
  - unfold sequence_number. rewrite (v_init _ _ _ _ _ _ V2), (v_cur _ _ _ _ _ _ V2), (v_init _ _ _ _ _ _ V). reflexivity.
Qed.
