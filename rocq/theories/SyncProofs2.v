(** Proofs about SyncModel.v: units behave as documented. *)
From Verif Require Import Base SyncModel SyncSpec SyncProofs1.

Lemma sync_loop_clear D TR N fuel h sp k body s : 0 < fuel -> p_err s = false -> sync_loop D TR N fuel h sp k body s = body s.
Proof. intros Hf E. destruct fuel; [lia|]. cbn [sync_loop]. rewrite E. simpl. destruct (body s); reflexivity. Qed.

Section Doc.
Context (D : list (option Z)) (TR : bool) (N : nat).
Local Notation len := (length D).
Context (HN : len + 2 <= N).

Lemma sync_production_plain sp s : plain D sp -> settled s ->
  (exists p t s', sync_production D TR N sp s = Done s' /\ first_from D (s_lits sp) (p_pos s) p /\ longest D (s_lits sp) p t /\ found s s' p t) \/
  (exists s', sync_production D TR N sp s = Fail s' /\ at_eod D s' = true /\ p_err s' = p_err s /\ p_tr s' = p_tr s /\
    (forall p, p_pos s <= p -> ~ occurs D (s_lits sp) p)).
Proof.
  intros (M & RX & ND & G) ST. unfold sync_production, get_look_ahead.
  destruct (at_eod D s) eqn:EOD.
  - right. exists (set_lah s SEod (p_lahe s)).
    assert (E : at_eod D (set_lah s SEod (p_lahe s)) = true) by exact EOD. rewrite E. simpl.
    repeat split. intros p Hp O. apply occurs_lt in O. destruct ST as (_ & _ & S3).
    apply at_eod_settled in EOD; [lia|assumption].
  - destruct (search_loop_spec D TR N sp RX ND G N s ST ltac:(lia)) as
      [(p & t & s' & -> & F & L & O)|(s' & -> & L1 & L2 & L3 & L4 & L5)].
    + left. exists p, t, s'. destruct O as (O1 & O2 & O3 & O4 & O5 & O6).
      assert (E : at_eod D s' = false).
      { assert (p < len) by (eapply occurs_lt; exists t; split; apply L). unfold at_eod. apply Nat.leb_gt. lia. }
      rewrite E, O3, M. simpl. repeat split; try assumption; try apply F; try apply L; lia.
    + right. exists s'. rewrite L1. simpl. rewrite orb_true_r. repeat split; try assumption.
      unfold at_eod. apply Nat.leb_le. lia.
Qed.

Lemma sync_from u k from from' s s' r :
  sync D u k from s r -> from' <= from -> p_head s' <= p_head s -> p_tr s' = p_tr s ->
  (forall sp f q, nth_error (u_fields u) k = Some f -> f_sync f = Some sp -> from' <= q < from -> ~ occurs D (s_lits sp) q) ->
  sync D u k from' s' r.
Proof.
  intros H L Hh Ht NO. inversion H; subst.
  - eapply sync_lost; try eassumption. intros p Hp. destruct (Nat.lt_ge_cases p from); [eapply NO; [eassumption|eassumption|lia]|auto].
  - eapply sync_found with (p := p) (t := t) (h := h); try eassumption; try reflexivity.
    + destruct H2 as (F1 & F2 & F3). split; [lia|]. split; [assumption|]. intros q Hq.
      destruct (Nat.lt_ge_cases q from); [eapply NO; [eassumption|eassumption|lia]|apply F3; lia].
    + lia.
    + rewrite Ht. assumption.
Qed.

Definition last_group (gs : list (list nat * option nat)) : Prop := exists is, gs = [(is, None)].

Definition post (u : unit_) (k0 i : nat) (s : pst) (r : fres) : Prop :=
  match r with
  | Done s' => doc D u k0 i s (DDone s')
  | Fatal => doc D u k0 i s DFatal
  | Fail s' =>
      (doc D u k0 i s DFail /\ (p_err s' = false \/ at_eod D s' = true)) \/
      (p_err s' = true /\ p_err s = true /\ settled s' /\ p_pos s <= p_pos s' /\ forall r', sync D u k0 (S (p_pos s')) s' r' -> doc D u k0 i s r')
  end.

Lemma at_eod_advance s : at_eod D s = true -> at_eod D (advance D TR s) = true.
Proof.
  unfold at_eod. rewrite !Nat.leb_le. pose proof (next_pos_gt D s).
  unfold advance, trim_input. destruct TR; simpl; lia.
Qed.
Lemma sync_production_eod sp s : at_eod D s = true -> exists s', sync_production D TR N sp s = Fail s' /\ at_eod D s' = true.
Proof.
  intro E. unfold sync_production, get_look_ahead. rewrite E.
  exists (set_lah s SEod (p_lahe s)).
  assert (E' : at_eod D (set_lah s SEod (p_lahe s)) = true) by exact E. rewrite E'. simpl. auto.
Qed.

Lemma sync_loop_doc u k f sp gs' body :
  nth_error (u_fields u) k = Some f -> f_sync f = Some sp -> plain D sp ->
  (forall s, u_synced u s <> HReject) -> ((forall s, u_synced u s <> HNone) \/ last_group gs') ->
  (forall s k0, entry D f s -> (p_err s = false \/ last_group gs') -> post u k0 k s (body s)) ->
  forall fuel s, p_err s = true -> settled s -> len - p_pos s < fuel ->
  match sync_loop D TR N fuel (u_synced u) sp k body s with
  | Done s' => sync D u k (p_pos s) s (DDone s')
  | Fatal => sync D u k (p_pos s) s DFatal
  | Fail s' => sync D u k (p_pos s) s DFail /\ (p_err s' = false \/ at_eod D s' = true)
  end.
Proof.
  intros NF SF PL NR HL HB. induction fuel as [|fuel IH]; intros s Es ST Hf; [lia|].
  cbn [sync_loop]. rewrite Es.
  destruct (sync_production_plain sp s PL ST) as [(p & t & s1 & -> & F & L & O)|(s1 & -> & E1 & E2 & E3 & NO)].
  2:{ split; [eapply sync_lost; eassumption|]. right. exact E1. }
  destruct O as (O1 & O2 & O3 & O4 & O5 & O6).
  assert (Hp : p < len) by (eapply occurs_lt; exists t; split; apply L).
  assert (Es1 : s1 = mkP p (p_head s1) (STok (tok_id t)) (p + length (tok_word t)) true (p_tr s)).
  { destruct s1 as [a b c d e g]; simpl in *; subst; rewrite ?Es; reflexivity. }
  set (sl := log s1 (EvSynced k (p_pos s1))).
  assert (Esl : sl = mkP p (p_head s1) (STok (tok_id t)) (p + length (tok_word t)) true (EvSynced k p :: p_tr s)).
  { unfold sl. rewrite Es1. reflexivity. }
  assert (EN : forall b, entry D f (set_err sl b)).
  { intro b. right. exists sp, t. rewrite Esl. simpl. refine (conj SF (conj _ (conj _ (conj eq_refl (conj eq_refl _))))); try apply L. lia. }
  (* after the hook, the rest of the unit *)
  assert (TRY : forall b s3, s3 = set_err sl b -> (b = false \/ last_group gs') -> forall res,
     res = match body s3 with
           | Done s2 => Done s2
           | Fail s2 => if negb true || negb (p_err s2) then Fail s2 else sync_loop D TR N fuel (u_synced u) sp k body (advance D TR s2)
           | Fatal => Fatal
           end ->
     match res with
     | Done s' => doc D u k k s3 (DDone s')
     | Fatal => doc D u k k s3 DFatal
     | Fail s' => doc D u k k s3 DFail /\ (p_err s' = false \/ at_eod D s' = true)
     end).
  { intros b s3 E3 Hb res ->.
    assert (P : post u k k s3 (body s3)).
    { apply HB; [rewrite E3; apply EN|]. rewrite E3. exact Hb. }
    destruct (body s3) as [s2|s2|]; simpl in P; try assumption.
    destruct P as [(P1 & P2)|(P1 & P0 & P2 & P3 & P4)].
    - simpl. destruct (p_err s2) eqn:E2; simpl; [|auto].
      destruct P2 as [P2|P2]; [discriminate|].
      assert (X : match sync_loop D TR N fuel (u_synced u) sp k body (advance D TR s2) with Fail s' => at_eod D s' = true | _ => False end \/ fuel = 0).
      { destruct fuel as [|fuel']; [auto|]. left. cbn [sync_loop].
        destruct (advance_keeps D TR s2) as (_ & _ & K3 & _). rewrite K3, E2.
        destruct (sync_production_eod sp _ (at_eod_advance _ P2)) as (s' & -> & E'). exact E'. }
      destruct X as [X| ->].
      + destruct (sync_loop _ _ _ _ _ _ _ _ _); try contradiction. auto.
      + exfalso. destruct ST as (_ & _ & ST3).
        assert (p_pos s <= p) by apply F. lia.
    - rewrite P1. simpl.
      destruct (advance_keeps D TR s2) as (K1 & K2 & K3 & K4 & K5).
      assert (ST' : settled (advance D TR s2)).
      { destruct P2 as (Q1 & Q2 & Q3). pose proof (next_pos_gt D s2). repeat split; [congruence|rewrite K2, advance_pos; lia|apply advance_head; assumption]. }
      assert (Hpos : p <= p_pos s2) by (rewrite E3, Esl in P3; exact P3).
      assert (H1 : p_pos s <= p) by apply F.
      specialize (IH (advance D TR s2) ltac:(congruence) ST').
      rewrite advance_pos in IH. pose proof (next_pos_gt D s2) as NG. specialize (IH ltac:(lia)).
      assert (CONT : forall r', sync D u k (next_pos D s2) (advance D TR s2) r' -> doc D u k k s3 r').
      { intros r' HS. apply P4. eapply sync_from; [exact HS|lia|assumption|congruence|].
        intros sp' f' q _ _ Hq (t' & _ & PR). revert PR. apply present_gap.
        apply (proj2 (next_pos_spec D s2 (proj2 (proj2 P2)))). lia. }
      destruct (sync_loop _ _ _ _ _ _ _ _ _) as [s'|s'|]; auto. destruct IH as (I1 & I2). auto. }
  assert (WRAP : forall r, resume D u k s1 sl r -> sync D u k (p_pos s) s r).
  { intros r HR. eapply sync_found with (p := p) (t := t) (h := p_head s1); try eassumption; try reflexivity.
    rewrite <- Es1. exact HR. }
  destruct (u_synced u s1) eqn:HK; simpl.
  - destruct HL as [HL|HL]; [exfalso; eapply HL; exact HK|].
    specialize (TRY true sl ltac:(rewrite Esl; reflexivity) (or_intror HL) _ eq_refl). simpl in TRY.
    destruct (match body sl with Done s2 => _ | Fail s2 => _ | Fatal => _ end) as [s'|s'|]; [|destruct TRY as (T1 & T2); split; [|assumption]|];
      apply WRAP; apply resume_trial; assumption.
  - specialize (TRY false (set_err sl false) eq_refl (or_introl eq_refl) _ eq_refl). simpl in TRY.
    destruct (match body (set_err sl false) with Done s2 => _ | Fail s2 => _ | Fatal => _ end) as [s'|s'|]; [|destruct TRY as (T1 & T2); split; [|assumption]|];
      apply WRAP; apply resume_confirm; assumption.
  - exfalso. eapply NR. exact HK.
  - apply WRAP. apply resume_throw. assumption.
Qed.

Lemma settled_ran i s s' b : settled s' -> settled (ran i s s' b).
Proof. intro H. exact H. Qed.

Lemma run_fields_doc u : (forall f, In f (u_fields u) -> tidy D f) ->
  forall m i s, i + m <= length (u_fields u) ->
  (forall f, nth_error (u_fields u) i = Some f -> entry D f s) ->
  match run_fields (u_fields u) (List.seq i m) s with
  | Done s' => (m = 0 /\ s' = s \/ settled s') /\ p_pos s <= p_pos s' /\ (p_err s' = true -> p_err s = true) /\
               forall k0 r, doc D u k0 (i + m) s' r -> doc D u k0 i s r
  | Fail s' => exists j f sj sj', i <= j < i + m /\ nth_error (u_fields u) j = Some f /\ f_run f sj = Fail sj' /\ s' = ran j sj sj' false /\
                 settled s' /\ p_pos s <= p_pos s' /\ (p_err s' = true -> p_err s = true) /\
                 forall k0 r, doc D u k0 j sj r -> doc D u k0 i s r
  | Fatal => forall k0, doc D u k0 i s DFatal
  end.
Proof.
  intro TI. induction m as [|m IH]; intros i s Hm EN; simpl.
  - repeat split; auto. intros k0 r H. rewrite Nat.add_0_r in H. assumption.
  - destruct (nth_error (u_fields u) i) as [f|] eqn:NT.
    2:{ exfalso. apply nth_error_None in NT. lia. }
    specialize (EN f eq_refl).
    pose proof (TI f (nth_error_In _ _ NT) s EN) as T.
    destruct (f_run f s) as [s'|s'|] eqn:R.
    + destruct T as (T1 & T2 & T3).
      specialize (IH (S i) (ran i s s' true) ltac:(lia) (fun g _ => or_introl (settled_ran i s s' true T1))).
      fold (ran i s s' true).
      destruct (run_fields (u_fields u) (List.seq (S i) m) (ran i s s' true)) as [s2|s2|].
      * destruct IH as (I1 & I2 & I3 & I4). simpl in I2, I3. repeat split.
        -- right. destruct I1 as [(_ & ->)|I1]; [exact T1|exact I1].
        -- lia.
        -- intro E. auto.
        -- intros k0 r H. eapply doc_ok; [exact NT|exact R|]. apply I4. rewrite Nat.add_succ_r in H. exact H.
      * destruct IH as (j & g & sj & sj' & J1 & J2 & J3 & J4 & J5 & J6 & J7 & J8). simpl in J6, J7.
        exists j, g, sj, sj'. repeat split; try assumption; try lia; try apply J5; auto.
        intros k0 r H. eapply doc_ok; [exact NT|exact R|]. auto.
      * intro k0. eapply doc_ok; [exact NT|exact R|]. auto.
    + destruct T as (T1 & T2 & T3).
      exists i, f, s, s'. repeat split; try assumption; try lia; try apply T1; auto.
    + intro k0. eapply doc_fatal; eassumption.
Qed.

Lemma exec_doc u : plain_unit D u -> (forall s, u_synced u s <> HReject) -> (one_point u \/ forall s, u_synced u s <> HNone) ->
  forall i gs, shape u i gs -> forall s k0,
  (forall f, nth_error (u_fields u) i = Some f -> entry D f s) -> (p_err s = false \/ last_group gs) ->
  post u k0 i s (exec D TR N u gs s).
Proof.
  intros (TI & PU) NR OP i gs SH. induction SH as [i Hi|i Hi HNB|i k gs HC Hk SH IH]; intros s k0 EN HE; cbn [exec].
  - apply doc_end. apply nth_error_None. assumption.
  - pose proof (run_fields_doc u TI (length (u_fields u) - i) i s ltac:(lia) EN) as R.
    destruct (run_fields _ _ _) as [s'|s'|]; simpl.
    + destruct R as (_ & _ & _ & R). apply R. apply doc_end. apply nth_error_None. lia.
    + destruct R as (j & f & sj & sj' & J1 & J2 & J3 & J4 & J5 & J6 & J7 & J8).
      assert (Ee : p_err s' = p_err sj') by (subst s'; reflexivity).
      assert (Ep : p_pos s' = p_pos sj') by (subst s'; reflexivity).
      destruct (p_err s') eqn:E.
      * right. split; [reflexivity|]. split; [auto|]. split; [assumption|]. split; [assumption|]. intros r' H. apply J8.
        eapply doc_retry; [exact J2|exact J3|congruence|]. rewrite <- Ep, <- J4. exact H.
      * left. split; [|auto]. apply J8. eapply doc_fail; [exact J2|exact J3|congruence|]. apply HNB. lia.
    + apply R.
  - destruct HE as [HE|(is & HE)]; [|discriminate].
    pose proof (HC i ltac:(lia)) as Ck.
    assert (Ck' := Ck). destruct Ck' as (C1 & (fk & sp & C2 & C3) & C4). rewrite C2, C3.
    assert (PL : plain D sp) by (eapply PU; [eapply nth_error_In; exact C2|exact C3]).
    assert (HL : (forall s, u_synced u s <> HNone) \/ last_group gs).
    { destruct OP as [OP|OP]; [|auto]. right. inversion SH; subst; [lia|eexists; reflexivity|]. exfalso.
      destruct (H k ltac:(lia)) as (Q1 & (f' & sp' & Q2 & Q3) & _).
      assert (k = k1) by (eapply OP; [exact C2|exact Q2|congruence|congruence]). lia. }
    assert (BODY : forall s k0, entry D fk s -> p_err s = false \/ last_group gs -> post u k0 k s (exec D TR N u gs s)).
    { intros s1 k1 E1 E2. apply IH; [|assumption]. intros f' N'. assert (f' = fk) by congruence. subst. assumption. }
    pose proof (run_fields_doc u TI (k - i) i s ltac:(lia) EN) as R.
    destruct (run_fields _ _ _) as [s'|s'|].
    + destruct R as (R1 & R2 & R3 & R4). replace (i + (k - i)) with k in R4 by lia.
      assert (Es' : p_err s' = false) by (destruct (p_err s') eqn:E; [specialize (R3 eq_refl); congruence|reflexivity]).
      assert (ST : settled s') by (destruct R1 as [(R1 & _)|R1]; [lia|assumption]).
      rewrite sync_loop_clear by (assumption || lia).
      specialize (BODY s' k0 (or_introl ST) (or_introl Es')).
      destruct (exec D TR N u gs s') as [s2|s2|]; simpl in *; auto.
      destruct BODY as [(B1 & B2)|(B1 & B0 & _)]; [|congruence].
      left. auto.
    + destruct R as (j & f & sj & sj' & J1 & J2 & J3 & J4 & J5 & J6 & J7 & J8).
      assert (Es' : p_err s' = false) by (destruct (p_err s') eqn:E; [specialize (J7 eq_refl); congruence|reflexivity]).
      assert (Ee : p_err s' = p_err sj') by (subst s'; reflexivity).
      assert (Ep : p_pos s' = p_pos sj') by (subst s'; reflexivity).
      pose proof (sync_loop_doc u k fk sp gs (exec D TR N u gs) C2 C3 PL NR HL BODY N (set_err s' true) eq_refl J5 ltac:(simpl; lia)) as SL.
      assert (CONT : forall r', sync D u k (p_pos (set_err s' true)) (set_err s' true) r' -> doc D u k0 i s r').
      { intros r' H. apply J8. eapply doc_recover; [exact J2|exact J3|congruence|apply HC; lia|].
        rewrite <- Ep, <- J4. exact H. }
      destruct (sync_loop _ _ _ _ _ _ _ _ _) as [s2|s2|]; simpl in *; auto.
      destruct SL as (S1 & S2). left. auto.
    + simpl. apply R.
Qed.

Lemma run_unit_doc u s : plain_unit D u -> (forall s, u_synced u s <> HReject) -> (one_point u \/ forall s, u_synced u s <> HNone) ->
  settled s -> p_err s = false -> doc D u 0 0 s (to_doc (run_unit D TR N u s)).
Proof.
  intros PU NR OP ST E. pose proof (exec_doc u PU NR OP 0 _ (shape_groups u) s 0 (fun f _ => or_introl ST) (or_introl E)) as P.
  unfold run_unit. destruct (exec D TR N u (groups (u_fields u)) s) as [s'|s'|]; simpl in *; auto.
  destruct P as [(P & _)|(_ & P & _)]; [assumption|congruence].
Qed.
End Doc.
