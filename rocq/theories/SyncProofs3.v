(** Proofs about SyncModel.v: what holds for all units. *)
From Verif Require Import Base SyncModel SyncSpec SyncProofs1 SyncProofs2.

Lemma shape_bound u i gs : shape u i gs -> i < length (u_fields u) \/ gs = [].
Proof. intro H. destruct H; [auto|auto|left; lia]. Qed.

(** * No failure, no difference *)
Lemma run_fields_app fs a : forall b s,
  (forall i, In i a -> i < length fs) ->
  run_fields fs (a ++ b) s = match run_fields fs a s with Done s' => run_fields fs b s' | r => r end.
Proof.
  induction a as [|i a IH]; intros b s H; simpl; [reflexivity|].
  destruct (nth_error fs i) as [f|] eqn:E.
  - destruct (f_run f s); try reflexivity. apply IH. intros j Hj. apply H. simpl. auto.
  - exfalso. apply nth_error_None in E. specialize (H i (or_introl eq_refl)). lia.
Qed.
Lemma run_fields_err fs is : forall s s', (forall f s s', In f fs -> f_run f s = Done s' -> p_err s = false -> p_err s' = false) ->
  run_fields fs is s = Done s' -> p_err s = false -> p_err s' = false.
Proof.
  induction is as [|i is IH]; intros s s' H R E; simpl in R; [inversion R; subst; assumption|].
  destruct (nth_error fs i) as [f|] eqn:NT; [|inversion R; subst; assumption].
  destruct (f_run f s) as [s1|s1|] eqn:F; try discriminate.
  eapply IH in R; [exact R|exact H|]. simpl. eapply H; [eapply nth_error_In; exact NT|exact F|exact E].
Qed.

Lemma exec_transparent D TR N u : 0 < N ->
  (forall f s s', In f (u_fields u) -> f_run f s = Done s' -> p_err s = false -> p_err s' = false) ->
  forall i gs, shape u i gs -> forall s s', p_err s = false ->
  run_fields (u_fields u) (List.seq i (length (u_fields u) - i)) s = Done s' -> exec D TR N u gs s = Done s'.
Proof.
  intros HN HF i gs SH. induction SH as [i Hi|i Hi HNB|i k gs HC Hk SH IH]; intros s s' E R; cbn [exec].
  - replace (length (u_fields u) - i) with 0 in R by lia. simpl in R. assumption.
  - rewrite R. reflexivity.
  - destruct (HC i ltac:(lia)) as (_ & (f & sp & C2 & C3) & _). rewrite C2, C3.
    replace (List.seq i (length (u_fields u) - i)) with (List.seq i (k - i) ++ List.seq k (length (u_fields u) - k)) in R.
    2:{ replace (length (u_fields u) - i) with ((k - i) + (length (u_fields u) - k)) by lia. rewrite seq_app. do 2 f_equal. lia. }
    rewrite run_fields_app in R by (intros j Hj; apply in_seq in Hj; lia).
    destruct (run_fields (u_fields u) (List.seq i (k - i)) s) as [s1|s1|] eqn:R1; try discriminate.
    pose proof (run_fields_err _ _ _ _ HF R1 E) as E1.
    rewrite sync_loop_clear by assumption. apply IH; assumption.
Qed.

(** * What searching keeps *)
Section Keeps.
Context (D : list (option Z)) (TR : bool).
Definition keeps (s s' : pst) : Prop := p_err s' = p_err s /\ p_tr s' = p_tr s.
Lemma keeps_refl s : keeps s s.
Proof. split; reflexivity. Qed.
Lemma keeps_trans a b c : keeps a b -> keeps b c -> keeps a c.
Proof. intros (A & B) (C & E). split; congruence. Qed.
Lemma keeps_advance s : keeps s (advance D TR s).
Proof. destruct (advance_keeps D TR s) as (_ & _ & A & B & _). split; assumption. Qed.
Lemma keeps_lah s l e : keeps s (set_lah s l e).
Proof. split; reflexivity. Qed.
Lemma keeps_consume s : keeps s (consume TR s).
Proof. unfold consume, trim_input. destruct TR; split; reflexivity. Qed.
Definition rkeeps (s : pst) (r : round) : Prop := match r with RNext s' | RAgain s' | RAmbiguous s' => keeps s s' | RFatal => True end.
Lemma rkeeps_trans a b r : keeps a b -> rkeeps b r -> rkeeps a r.
Proof. intros H1 H2. destruct r; simpl in *; auto; eapply keeps_trans; eassumption. Qed.
Lemma rx_loop_keeps fuel re : forall fed s, rkeeps s (rx_loop D TR fuel re fed s).
Proof.
  induction fuel as [|fuel IH]; intros fed s; simpl; [exact Logic.I|].
  destruct (_ && _); [exact Logic.I|]. destruct (re _ _); simpl; try apply keeps_lah.
  destruct (run_final _); simpl; [apply keeps_lah|]. eapply rkeeps_trans; [apply keeps_advance|apply IH].
Qed.
Lemma lits_keeps ts : forall first s, rkeeps s (lits D TR first ts s).
Proof.
  induction ts as [|t ts IH]; intros first s; simpl; [apply keeps_refl|].
  destruct (Nat.ltb _ _); [exact Logic.I|]. destruct (match_tok D t (p_pos s)); simpl; [apply IH|apply keeps_advance|].
  destruct first; [eapply rkeeps_trans; [apply keeps_lah|apply IH]|].
  destruct (Nat.leb _ _); [|apply IH]. destruct (_ && _); [apply keeps_refl|eapply rkeeps_trans; [apply keeps_lah|apply IH]].
Qed.
Definition fkeeps (s : pst) (r : fres) : Prop := match r with Done s' | Fail s' => keeps s s' | Fatal => True end.
Lemma fkeeps_trans a b r : keeps a b -> fkeeps b r -> fkeeps a r.
Proof. intros H1 H2. destruct r; simpl in *; auto; eapply keeps_trans; eassumption. Qed.
Lemma one_round_keeps N sp s : rkeeps s (one_round D TR N sp s).
Proof.
  unfold one_round. destruct (s_rx sp) as [re|]; [|apply lits_keeps].
  pose proof (rx_loop_keeps N re [] s) as H. destruct (rx_loop _ _ _ _ _ _); try assumption. simpl in H.
  eapply rkeeps_trans; [exact H|apply lits_keeps].
Qed.
Lemma search_loop_keeps N sp fuel : forall s, fkeeps s (search_loop D TR N fuel sp s).
Proof.
  induction fuel as [|fuel IH]; intro s; simpl; [exact Logic.I|].
  pose proof (one_round_keeps N sp s) as H. destruct (one_round D TR N sp s) as [s'|s'|s'|]; simpl in *; try assumption.
  - destruct (_ || _); [assumption|]. eapply fkeeps_trans; [eapply keeps_trans; [exact H|apply keeps_advance]|apply IH].
  - eapply fkeeps_trans; [exact H|apply IH].
Qed.
Lemma sync_production_keeps N sp s : fkeeps s (sync_production D TR N sp s).
Proof.
  unfold sync_production. assert (H : fkeeps s (get_look_ahead D TR N sp s)).
  { unfold get_look_ahead. destruct (at_eod D s); [apply keeps_lah|apply search_loop_keeps]. }
  destruct (get_look_ahead D TR N sp s) as [s'|s'|]; simpl in *; try assumption.
  destruct (_ || _); [assumption|]. destruct (s_mode sp); simpl; [assumption| |].
  - destruct H; split; assumption.
  - destruct (keeps_consume s') as (A & B). destruct H. split; simpl; congruence.
Qed.
End Keeps.

(** * Events *)
Section Events.
Context (D : list (option Z)) (TR : bool) (N : nat) (u : unit_).

(** Newest event first. *)
Fixpoint olink (l : list event) : Prop :=
  match l with
  | e2 :: (e1 :: _) as l' => follows u e1 e2 /\ olink l'
  | _ => True
  end.
Definition allows (l : list event) (e : event) : Prop := match l with [] => True | e1 :: _ => follows u e1 e end.
Lemma olink_cons e l : allows l e -> olink l -> olink (e :: l).
Proof. destruct l as [|e1 l]; simpl; auto. Qed.
Lemma orderly_snoc l : forall e1 e, orderly u (l ++ [e1]) -> follows u e1 e -> orderly u (l ++ [e1; e]).
Proof.
  induction l as [|a l IH]; intros e1 e H F; simpl; [auto|].
  destruct l as [|b l]; simpl in *.
  - destruct H. auto.
  - destruct H as (H1 & H2). split; [assumption|]. apply (IH e1 e H2 F).
Qed.
Lemma olink_orderly l : olink l -> orderly u (rev l).
Proof.
  induction l as [|e l IH]; intro H; simpl; [exact Logic.I|].
  destruct l as [|e1 l]; [exact Logic.I|]. destruct H as (H1 & H2). specialize (IH H2). simpl in IH |- *.
  rewrite <- app_assoc. simpl. apply orderly_snoc; assumption.
Qed.

Lemma run_fields_link m : forall i s, i + m <= length (u_fields u) ->
  (forall j, i <= j < i + m -> j < length (u_fields u)) -> olink (p_tr s) -> (forall b, allows (p_tr s) (EvField i (p_pos s) b)) ->
  match run_fields (u_fields u) (List.seq i m) s with
  | Done s' => olink (p_tr s') /\ (m = 0 /\ s' = s \/ exists p l, p_tr s' = EvField (i + m - 1) p true :: l)
  | Fail s' => olink (p_tr s') /\ exists j p l, i <= j < i + m /\ p_tr s' = EvField j p false :: l
  | Fatal => True
  end.
Proof.
  induction m as [|m IH]; intros i s Hm Hj OL AL; simpl.
  - split; [assumption|auto].
  - destruct (nth_error (u_fields u) i) as [f|] eqn:NT; [|exfalso; apply nth_error_None in NT; lia].
    destruct (f_run f s) as [s1|s1|]; [| |exact Logic.I].
    + match goal with |- match run_fields _ _ ?x with _ => _ end => set (s2 := x) end.
      assert (OL2 : olink (p_tr s2)) by (apply olink_cons; [apply AL|assumption]).
      specialize (IH (S i) s2 ltac:(lia) ltac:(intros; lia) OL2 (fun b => eq_refl)).
      destruct (run_fields (u_fields u) (List.seq (S i) m) s2) as [s'|s'|]; [| |exact Logic.I].
      * destruct IH as (I1 & I2). split; [assumption|]. right. destruct I2 as [(-> & ->)|(p & l & E)].
        -- exists (p_pos s), (p_tr s). replace (i + 1 - 1) with i by lia. reflexivity.
        -- exists p, l. replace (i + S m - 1) with (S i + m - 1) by lia. assumption.
      * destruct IH as (I1 & j & p & l & J1 & J2). split; [assumption|]. exists j, p, l. split; [lia|assumption].
    + split; [apply olink_cons; [apply AL|assumption]|]. exists i, (p_pos s), (p_tr s). split; [lia|reflexivity].
Qed.

(** After a failure behind the synchronization point k, everything up to k can be tried again. *)
Definition ended (k : nat) (l : list event) : Prop :=
  match l with
  | [] => True
  | EvField j _ false :: _ => k <= j /\ none_behind u j
  | EvField j _ true :: _ => False
  | EvSynced k' _ :: _ => k < k'
  | EvLost k' :: _ => k < k'
  end.
Lemma ended_synced k l p : ended k l -> allows l (EvSynced k p).
Proof. destruct l as [|[j q [|]|k' q|k'] l]; simpl; auto; [intros []|intros (A & B); auto]. Qed.
Lemma ended_lost k l : ended k l -> allows l (EvLost k).
Proof. destruct l as [|[j q [|]|k' q|k'] l]; simpl; auto; [intros []|intros (A & B); auto]. Qed.
Lemma ended_less k k' l : k' <= k -> ended k l -> ended k' l.
Proof. destruct l as [|[j q [|]|k2 q|k2] l]; simpl; auto; [|lia|lia]. intros L (A & B). split; [lia|assumption]. Qed.

Definition lpost (k : nat) (r : fres) : Prop :=
  match r with Done s => olink (p_tr s) | Fail s => olink (p_tr s) /\ ended k (p_tr s) | Fatal => True end.

Lemma sync_loop_link sp k body k0 : k0 < k ->
  (forall s, olink (p_tr s) -> (forall b, allows (p_tr s) (EvField k (p_pos s) b)) -> lpost k (body s)) ->
  forall fuel s, olink (p_tr s) ->
  (p_err s = true -> (forall p, allows (p_tr s) (EvSynced k p)) /\ allows (p_tr s) (EvLost k)) ->
  (p_err s = false -> forall b, allows (p_tr s) (EvField k (p_pos s) b)) ->
  lpost k0 (sync_loop D TR N fuel (u_synced u) sp k body s).
Proof.
  intros Hk HB. induction fuel as [|fuel IH]; intros s OL A1 A2; [exact Logic.I|]. cbn [sync_loop].
  assert (TRY : forall trial s1, olink (p_tr s1) -> (forall b, allows (p_tr s1) (EvField k (p_pos s1) b)) ->
    lpost k0 match body s1 with
             | Done s2 => Done s2
             | Fail s2 => if negb trial || negb (p_err s2) then Fail s2 else sync_loop D TR N fuel (u_synced u) sp k body (advance D TR s2)
             | Fatal => Fatal
             end).
  { intros trial s1 OL1 AL1. specialize (HB s1 OL1 AL1). destruct (body s1) as [s2|s2|]; simpl in HB; [assumption| |exact Logic.I].
    destruct HB as (B1 & B2). destruct (negb trial || negb (p_err s2)) eqn:E.
    - split; [assumption|]. eapply ended_less; [|exact B2]. lia.
    - apply orb_false_iff in E as (_ & E). apply negb_false_iff in E.
      destruct (keeps_advance D TR s2) as (K1 & K2).
      apply IH; rewrite ?K2; [assumption| |congruence].
      intros _. split; [intro p; apply ended_synced; assumption|apply ended_lost; assumption]. }
  destruct (p_err s) eqn:E.
  - destruct (A1 eq_refl) as (A3 & A4).
    pose proof (sync_production_keeps D TR N sp s) as K.
    destruct (sync_production D TR N sp s) as [s1|s1|]; simpl in K; [| |exact Logic.I]; destruct K as (K1 & K2).
    + assert (OL2 : olink (p_tr (log s1 (EvSynced k (p_pos s1))))).
      { simpl p_tr. rewrite K2. apply olink_cons; [apply A3|assumption]. }
      assert (AL2 : forall b, allows (p_tr (log s1 (EvSynced k (p_pos s1)))) (EvField k (p_pos (log s1 (EvSynced k (p_pos s1)))) b)).
      { intro b. simpl. auto. }
      destruct (u_synced u s1); simpl run_hook; cbv iota.
      * apply TRY; assumption.
      * apply TRY; assumption.
      * split; [assumption|]. simpl. lia.
      * exact Logic.I.
    + split; simpl p_tr; [rewrite K2; apply olink_cons; assumption|]. simpl. lia.
  - apply TRY; auto.
Qed.

Lemma exec_link i gs : shape u i gs -> forall s, olink (p_tr s) -> (forall b, allows (p_tr s) (EvField i (p_pos s) b)) ->
  lpost i (exec D TR N u gs s).
Proof.
  intro SH. induction SH as [i Hi|i Hi HNB|i k gs HC Hk SH IH]; intros s OL AL; cbn [exec].
  - exact OL.
  - pose proof (run_fields_link (length (u_fields u) - i) i s ltac:(lia) ltac:(intros; lia) OL AL) as R.
    destruct (run_fields _ _ _) as [s'|s'|]; simpl; [apply R| |exact Logic.I].
    destruct R as (R1 & j & p & l & J1 & J2). split; [assumption|]. rewrite J2. simpl. split; [lia|]. apply HNB. lia.
  - destruct (HC i ltac:(lia)) as (_ & (f & sp & C2 & C3) & _). rewrite C2, C3.
    pose proof (run_fields_link (k - i) i s ltac:(lia) ltac:(intros; lia) OL AL) as R.
    destruct (run_fields _ _ _) as [s'|s'|]; [| |exact Logic.I].
    + destruct R as (R1 & [(R2 & _)|(p & l & R2)]); [lia|].
      replace (i + (k - i) - 1) with (k - 1) in R2 by lia.
      eapply sync_loop_link; [lia|exact IH|assumption| |]; rewrite R2; simpl; [intros _; split; intros; lia|intros _ b; lia].
    + destruct R as (R1 & j & p & l & J1 & J2). assert (Cj : closest u j k) by (apply HC; lia).
      eapply sync_loop_link; [lia|exact IH|exact R1| |]; simpl p_tr; rewrite J2; simpl; [auto|discriminate].
Qed.

Lemma run_unit_orderly s s' : p_tr s = [] -> run_unit D TR N u s = Done s' \/ run_unit D TR N u s = Fail s' -> orderly u (rev (p_tr s')).
Proof.
  intros T R. assert (P : lpost 0 (run_unit D TR N u s)).
  { apply exec_link; [apply shape_groups|rewrite T; exact Logic.I|rewrite T; intros; exact Logic.I]. }
  apply olink_orderly. destruct R as [R|R]; rewrite R in P; [exact P|apply P].
Qed.

(** * Confirming *)
Context (NCF : forall f s s', In f (u_fields u) -> f_run f s = Done s' \/ f_run f s = Fail s' -> p_err s = true -> p_err s' = true)
        (NCH : forall s, u_synced u s <> HConfirm).
Definition unconfirmed (s : pst) : Prop := Exists failed_field (p_tr s) -> p_err s = true.

Lemma run_fields_unconf is : forall s s', unconfirmed s -> run_fields (u_fields u) is s = Done s' -> unconfirmed s'.
Proof.
  induction is as [|i is IH]; intros s s' H R; simpl in R; [inversion R; subst; assumption|].
  destruct (nth_error (u_fields u) i) as [f|] eqn:NT; [|inversion R; subst; assumption].
  destruct (f_run f s) as [s1|s1|] eqn:F; try discriminate.
  eapply IH in R; [exact R|]. unfold unconfirmed. simpl. intro X. inversion X; subst; [contradiction|].
  eapply NCF; [eapply nth_error_In; exact NT|left; exact F|]. apply H. assumption.
Qed.
Lemma sync_loop_unconf sp k body :
  (forall s s', unconfirmed s -> body s = Done s' -> unconfirmed s') ->
  forall fuel s s', unconfirmed s -> sync_loop D TR N fuel (u_synced u) sp k body s = Done s' -> unconfirmed s'.
Proof.
  intros HB. induction fuel as [|fuel IH]; intros s s' H R; cbn [sync_loop] in R; [discriminate|].
  destruct (p_err s) eqn:E.
  - pose proof (sync_production_keeps D TR N sp s) as K.
    destruct (sync_production D TR N sp s) as [s1|s1|]; try discriminate. simpl in K. destruct K as (K1 & K2).
    destruct (u_synced u s1) eqn:HK; simpl run_hook in R; cbv iota in R; try discriminate; [|exfalso; eapply NCH; exact HK].
    assert (U : unconfirmed (log s1 (EvSynced k (p_pos s1)))) by (intro X; simpl; congruence).
    destruct (body (log s1 (EvSynced k (p_pos s1)))) as [s2|s2|] eqn:B; try discriminate.
    + inversion R; subst. eapply HB; eassumption.
    + destruct (negb true || negb (p_err s2)) eqn:E2; try discriminate.
      apply orb_false_iff in E2 as (_ & E2). apply negb_false_iff in E2.
      eapply IH; [|exact R]. intros _. destruct (keeps_advance D TR s2). congruence.
  - destruct (body s) as [s2|s2|] eqn:B; simpl in R; try discriminate.
    inversion R; subst. eapply HB; eassumption.
Qed.
Lemma exec_unconf gs : forall s s', unconfirmed s -> exec D TR N u gs s = Done s' -> unconfirmed s'.
Proof.
  induction gs as [|(is & [k|]) gs IH]; intros s s' H R; cbn [exec] in R; [inversion R; subst; assumption| |].
  - destruct (match nth_error (u_fields u) k with Some f => f_sync f | None => None end) as [sp|]; [|discriminate].
    destruct (run_fields (u_fields u) is s) as [s1|s1|] eqn:RF; try discriminate.
    + eapply sync_loop_unconf; [exact IH| |exact R]. eapply run_fields_unconf; eassumption.
    + eapply sync_loop_unconf; [exact IH| |exact R]. intros _. reflexivity.
  - destruct (run_fields (u_fields u) is s) as [s1|s1|] eqn:RF; try discriminate.
    eapply IH; [|exact R]. eapply run_fields_unconf; eassumption.
Qed.
End Events.

(** * Ending *)
Section Ends.
Context (D : list (option Z)) (N : nat).
Local Notation len := (length D).
Context (HN : len + 2 <= N).

Definition fresh (p : nat) (s : pst) : Prop := p_head s = 0 /\ p <= p_pos s.
Lemma fresh_advance p s : fresh p s -> fresh (S p) (advance D false s).
Proof. intros (A & B). split; [exact A|]. rewrite advance_pos. pose proof (next_pos_gt D s). lia. Qed.
Lemma fresh_less p q s : q <= p -> fresh p s -> fresh q s.
Proof. intros L (A & B). split; [exact A|lia]. Qed.
Lemma fresh_ltb p s : fresh p s -> Nat.ltb (p_pos s) (p_head s) = false.
Proof. intros (A & _). apply Nat.ltb_ge. lia. Qed.

Definition rends (p : nat) (r : round) : Prop :=
  match r with RNext s' | RAmbiguous s' => fresh p s' | RAgain s' => fresh (S p) s' | RFatal => False end.
Lemma run_final_eod s : len <= p_pos s -> run_final (skipn (p_pos s) D) = true.
Proof. intro H. rewrite skipn_all2 by assumption. reflexivity. Qed.

Lemma rx_loop_ends re : forall fuel fed s, fresh (p_pos s) s -> len - p_pos s < fuel -> rends (p_pos s) (rx_loop D false fuel re fed s).
Proof.
  induction fuel as [|fuel IH]; intros fed s FR Hf; [lia|]. simpl.
  rewrite (fresh_ltb _ _ FR). simpl.
  destruct (re _ _); simpl; try (exact FR).
  destruct (run_final (skipn (p_pos s) D)) eqn:E; simpl; [exact FR|].
  assert (Hlt : p_pos s < len) by (destruct (Nat.lt_ge_cases (p_pos s) len) as [|X]; [assumption|apply run_final_eod in X; congruence]).
  pose proof (fresh_advance _ _ FR) as FA. pose proof (next_pos_gt D s) as NG.
  specialize (IH (fed ++ run (skipn (p_pos s) D)) (advance D false s)). rewrite advance_pos in IH.
  assert (FB : fresh (next_pos D s) (advance D false s)) by (split; [exact (proj1 FA)|rewrite advance_pos; lia]).
  specialize (IH FB ltac:(lia)).
  destruct (rx_loop _ _ _ _ _ _); simpl in *; try assumption; eapply fresh_less; try exact IH; lia.
Qed.
Lemma lits_ends p ts : forall first s, fresh p s -> rends p (lits D false first ts s).
Proof.
  induction ts as [|t ts IH]; intros first s FR; simpl; [exact FR|].
  rewrite (fresh_ltb _ _ FR). destruct (match_tok D t (p_pos s)).
  - apply IH; assumption.
  - apply (fresh_advance _ _ FR).
  - destruct first; [apply IH; exact FR|]. destruct (Nat.leb _ _); [|apply IH; assumption].
    destruct (_ && _); [exact FR|apply IH; exact FR].
Qed.
Lemma one_round_ends sp s : p_head s = 0 -> rends (p_pos s) (one_round D false N sp s).
Proof.
  intro H. unfold one_round. assert (FR : fresh (p_pos s) s) by (split; [assumption|lia]).
  destruct (s_rx sp) as [re|]; [|apply lits_ends; assumption].
  pose proof (rx_loop_ends re N [] s FR ltac:(lia)) as R. destruct (rx_loop _ _ _ _ _ _); simpl in R; try assumption.
  apply lits_ends. assumption.
Qed.
Definition fends (p : nat) (r : fres) : Prop := match r with Done s' | Fail s' => fresh p s' | Fatal => False end.
Lemma fends_less p q r : q <= p -> fends p r -> fends q r.
Proof. intros L. destruct r; simpl; try apply fresh_less; auto. Qed.
Lemma match_missing_lt t p : match_tok D t p = MMissing -> p < len.
Proof.
  intro M. unfold match_tok in M. destruct (Nat.ltb (len - p) (length (tok_word t))) eqn:E; [discriminate|].
  apply Nat.ltb_ge in E. destruct (Nat.lt_ge_cases p len) as [|X]; [assumption|].
  rewrite skipn_all2 in M by assumption. rewrite firstn_nil in M.
  destruct t as [id w|id w]; simpl in *; destruct w; simpl in *; try discriminate; lia.
Qed.
Lemma lits_again ts : forall first s s', lits D false first ts s = RAgain s' -> p_pos s < len.
Proof.
  induction ts as [|t ts IH]; intros first s s' H; simpl in H; [discriminate|].
  destruct (Nat.ltb _ _); [discriminate|]. destruct (match_tok D t (p_pos s)) eqn:M.
  - eapply IH; exact H.
  - eapply match_missing_lt; exact M.
  - destruct first; [eapply (IH _ (set_lah s _ _)); exact H|]. destruct (Nat.leb _ _); [|eapply IH; exact H].
    destruct (_ && _); [discriminate|eapply (IH _ (set_lah s _ _)); exact H].
Qed.
Lemma rx_loop_not_again re : forall fuel fed s s', rx_loop D false fuel re fed s <> RAgain s'.
Proof.
  induction fuel as [|fuel IH]; intros fed s s'; simpl; [discriminate|].
  destruct (_ && _); [discriminate|]. destruct (re _ _); try discriminate. destruct (run_final _); [discriminate|apply IH].
Qed.
Lemma one_round_again sp s s' : p_head s = 0 -> one_round D false N sp s = RAgain s' -> p_pos s < len.
Proof.
  intro H0. unfold one_round. destruct (s_rx sp) as [re|]; [|apply lits_again].
  pose proof (rx_loop_ends re N [] s (conj H0 (Nat.le_refl _)) ltac:(lia)) as R.
  destruct (rx_loop D false N re [] s) as [s1|s1|s1|] eqn:E; try discriminate; intro H.
  - apply lits_again in H. destruct R as (_ & R). lia.
  - exfalso. eapply rx_loop_not_again; exact E.
Qed.

Lemma search_loop_ends sp : forall fuel s, p_head s = 0 -> len - p_pos s < fuel -> fends (p_pos s) (search_loop D false N fuel sp s).
Proof.
  induction fuel as [|fuel IH]; intros s H0 Hf; [lia|]. simpl.
  pose proof (one_round_ends sp s H0) as R. destruct (one_round D false N sp s) as [s1|s1|s1|] eqn:E; simpl in R; try assumption.
  - destruct (at_eod D s1 || lah_set (p_lah s1)) eqn:B; [exact R|].
    apply orb_false_iff in B as (B & _). unfold at_eod in B. apply Nat.leb_gt in B.
    pose proof (fresh_advance _ _ R) as (A1 & A2).
    destruct R as (R1 & R2). pose proof (next_pos_gt D s1) as NG. rewrite advance_pos in A2.
    change (search_loop D false N fuel sp (set_pos s1 (next_pos D s1))) with (search_loop D false N fuel sp (advance D false s1)).
    eapply fends_less; [|apply IH]; [|exact A1|]; rewrite ?advance_pos; simpl; lia.
  - pose proof (one_round_again sp s s1 H0 E). destruct R as (A1 & A2).
    eapply fends_less; [|apply IH]; [|exact A1|]; lia.
Qed.
Lemma sync_production_ends sp s : s_mode sp <> SAfter -> p_head s = 0 ->
  fends (p_pos s) (sync_production D false N sp s) /\
  (forall s', sync_production D false N sp s = Done s' -> p_pos s' < len).
Proof.
  intros M H0. unfold sync_production.
  assert (G : fends (p_pos s) (get_look_ahead D false N sp s)).
  { unfold get_look_ahead. destruct (at_eod D s); [split; simpl; [assumption|lia]|]. apply search_loop_ends; [assumption|lia]. }
  destruct (get_look_ahead D false N sp s) as [s'|s'|]; simpl in G; try (split; [exact G|discriminate]); try contradiction.
  destruct (at_eod D s' || negb (lah_set (p_lah s'))) eqn:B; [split; [exact G|discriminate]|].
  apply orb_false_iff in B as (B & _). unfold at_eod in B. apply Nat.leb_gt in B.
  destruct (s_mode sp); [| |congruence]; (split; [exact G|]); intros s2 E; inversion E; subst; simpl; lia.
Qed.

Section EndsUnit.
Context (u : unit_)
  (HF : forall f s, In f (u_fields u) -> p_head s = 0 -> match f_run f s with Done s' | Fail s' => p_head s' = 0 /\ p_pos s <= p_pos s' | Fatal => False end)
  (HH : forall s, u_synced u s <> HThrow)
  (HM : forall f sp, In f (u_fields u) -> f_sync f = Some sp -> s_mode sp <> SAfter).

Lemma run_fields_ends is : forall s, p_head s = 0 -> fends (p_pos s) (run_fields (u_fields u) is s).
Proof.
  induction is as [|i is IH]; intros s H0; simpl; [split; [assumption|lia]|].
  destruct (nth_error (u_fields u) i) as [f|] eqn:NT; [|split; [assumption|lia]].
  pose proof (HF f s (nth_error_In _ _ NT) H0) as R. destruct (f_run f s) as [s1|s1|]; try contradiction; destruct R as (R1 & R2).
  - eapply fends_less; [|apply IH]; [|exact R1]. exact R2.
  - split; assumption.
Qed.
Lemma sync_loop_ends sp k body : s_mode sp <> SAfter -> (forall s, p_head s = 0 -> fends (p_pos s) (body s)) ->
  forall fuel s, p_head s = 0 -> len - p_pos s < fuel -> fends (p_pos s) (sync_loop D false N fuel (u_synced u) sp k body s).
Proof.
  intros M HB. induction fuel as [|fuel IH]; intros s H0 Hf; [lia|]. cbn [sync_loop].
  destruct (p_err s) eqn:E.
  - destruct (sync_production_ends sp s M H0) as (P1 & P2).
    destruct (sync_production D false N sp s) as [s1|s1|]; simpl in P1; [|exact P1|contradiction].
    specialize (P2 s1 eq_refl). destruct P1 as (Q1 & Q2).
    assert (TRY : forall s3, p_head s3 = 0 -> p_pos s3 = p_pos s1 ->
      fends (p_pos s) match body s3 with
             | Done s2 => Done s2
             | Fail s2 => if negb true || negb (p_err s2) then Fail s2 else sync_loop D false N fuel (u_synced u) sp k body (advance D false s2)
             | Fatal => Fatal
             end).
    { intros s3 E1 E2. specialize (HB s3 E1). destruct (body s3) as [s2|s2|]; simpl in HB; [|destruct HB as (B1 & B2)|contradiction].
      - eapply fresh_less; [|exact HB]. lia.
      - destruct (negb true || negb (p_err s2)); [split; [assumption|lia]|].
        pose proof (next_pos_gt D s2) as NG.
        eapply fends_less; [|apply IH]; rewrite ?advance_pos; [lia|exact B1|lia]. }
    destruct (u_synced u s1) eqn:HK; simpl run_hook; cbv iota.
    + apply TRY; [assumption|reflexivity].
    + apply TRY; [assumption|reflexivity].
    + split; [assumption|exact Q2].
    + eapply HH; exact HK.
  - specialize (HB s H0). destruct (body s); simpl; assumption.
Qed.
Lemma exec_ends i gs : shape u i gs -> forall s, p_head s = 0 -> fends (p_pos s) (exec D false N u gs s).
Proof.
  intro SH. induction SH as [i Hi|i Hi HNB|i k gs HC Hk SH IH]; intros s H0; cbn [exec].
  - split; [assumption|lia].
  - pose proof (run_fields_ends (List.seq i (length (u_fields u) - i)) s H0) as R.
    destruct (run_fields _ _ _); assumption.
  - destruct (HC i ltac:(lia)) as (_ & (f & sp & C2 & C3) & _). rewrite C2, C3.
    assert (M : s_mode sp <> SAfter) by (eapply HM; [eapply nth_error_In; exact C2|exact C3]).
    pose proof (run_fields_ends (List.seq i (k - i)) s H0) as R.
    destruct (run_fields _ _ _) as [s1|s1|]; simpl in R; [| |contradiction]; destruct R as (R1 & R2).
    + eapply fends_less; [exact R2|]. apply sync_loop_ends; auto; lia.
    + eapply fends_less; [exact R2|]. apply (sync_loop_ends sp k (exec D false N u gs) M IH N (set_err s1 true)); [exact R1|simpl; lia].
Qed.
End EndsUnit.
End Ends.

(** * Literals *)
Section Lit.
Context (D : list (option Z)) (TR : bool).
Local Notation len := (length D).

Lemma settled_trim s : settled s -> settled (trim_input TR s).
Proof. intros (A & B & C). unfold trim_input. destruct TR; simpl; repeat split; simpl; auto; lia. Qed.
Lemma settled_consume s : p_head s <= p_pos s -> p_pos s <= p_lahe s -> settled (consume TR s) /\ p_pos (consume TR s) = p_lahe s /\ p_err (consume TR s) = p_err s.
Proof. intros H L. unfold consume, trim_input. destruct TR; simpl; repeat split; simpl; auto; lia. Qed.

Lemma literal_tidy t sy h : (sy = None \/ sy = Some (mkS SFirst None [t])) -> (forall s, h s <> HThrow) ->
  tidy D (mkF (with_hook (literal D TR t) h) sy).
Proof.
  intros SY NT s EN. unfold f_run, with_hook.
  assert (L : match literal D TR t s with
              | Done s' | Fail s' => settled s' /\ p_pos s <= p_pos s' /\ (p_err s' = true -> p_err s = true)
              | Fatal => True
              end).
  { unfold literal. destruct EN as [(A & B & C)|(sp & t' & E1 & E2 & E3 & E4 & E5 & E6)].
    - rewrite A. simpl. destruct (Nat.ltb _ _); [repeat split; auto|]. destruct (Nat.ltb _ _); [exact Logic.I|].
      destruct (starts_with _ _) as [[|]|]; try (repeat split; auto; fail).
      assert (ST : settled (trim_input TR (set_pos s (p_pos s + length (tok_word t))))) by (apply settled_trim; repeat split; simpl; auto; lia).
      split; [exact ST|]. unfold trim_input. destruct TR; simpl; split; auto; lia.
    - simpl in E1. destruct SY as [SY|SY]; [congruence|]. assert (sp = mkS SFirst None [t]) by congruence. subst sp. simpl in E2.
      destruct E2 as [<-|[]]. rewrite E4. simpl. rewrite Nat.eqb_refl. simpl.
      destruct (settled_consume s E6 ltac:(lia)) as (S1 & S2 & S3).
      assert (X : settled (consume TR s) /\ p_pos s <= p_pos (consume TR s) /\ (p_err (consume TR s) = true -> p_err s = true)).
      { repeat split; try apply S1; [lia|congruence]. }
      destruct t as [id w|id w]; [|exact X].
      destruct (Nat.ltb (p_pos s) (p_head s)); [exact Logic.I|].
      apply present_starts in E3 as (W1 & W2). simpl in *. rewrite E5.
      replace (p_pos s + length w - p_pos s) with (length w) by lia.
      rewrite starts_with_firstn, W2, Nat.eqb_refl. exact X. }
  destruct (literal D TR t s) as [s1|s1|]; [|exact L|exact Logic.I].
  destruct L as (L1 & L2 & L3). destruct (h s1) eqn:HK; simpl; repeat split; try apply L1; auto; try discriminate.
Qed.
End Lit.
