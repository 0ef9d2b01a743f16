(** Lemmas about the sink: delivery of a run of chunks, trimming, old segments. *)
From Verif Require Import Base BytesModel SinkModel SinkSpec SinkProofs.
Open Scope Z_scope.

(** ** Observations *)
Lemma flat_obs_data p d : flat_map byte_of (obs_data p d) = d.
Proof. revert p. induction d as [|b d IH]; intros p; cbn [obs_data flat_map byte_of]; [reflexivity|]. rewrite IH. reflexivity. Qed.
Lemma obs_data_app p a b : obs_data p (a ++ b) = obs_data p a ++ obs_data (p + blen a) b.
Proof.
  revert p. induction a as [|x a IH]; intros p.
  - cbn [app obs_data blen length]. unfold blen. cbn [length]. rewrite Z.add_0_r. reflexivity.
  - cbn [app obs_data]. rewrite IH. do 3 f_equal. unfold blen. cbn [length]. lia.
Qed.
Lemma advance_ext m m' p os q g : (forall x, p <= x -> m x = m' x) -> advance m p os q g -> advance m' p os q g.
Proof.
  intros H A. induction A as [p E|p e E|p b os q g E A IH].
  - apply adv_wait. rewrite <- H by lia. exact E.
  - apply adv_gap. rewrite <- H by lia. exact E.
  - apply adv_byte; [rewrite <- H by lia; exact E|]. apply IH. intros x Hx. apply H. lia.
Qed.
Lemma advance_data m p d os q g : (forall i b, nth_error d i = Some b -> m (p + Z.of_nat i) = Some (Byte b)) ->
  advance m (p + blen d) os q g -> advance m p (obs_data p d ++ os) q g.
Proof.
  revert p. induction d as [|b d IH]; intros p H A; cbn [obs_data app].
  - unfold blen in A. cbn [length] in A. rewrite Z.add_0_r in A. exact A.
  - apply adv_byte; [specialize (H 0%nat b eq_refl); rewrite Z.add_0_r in H; exact H|].
    apply IH.
    + intros i x N. specialize (H (S i) x N). rewrite <- H. f_equal. lia.
    + replace (p + 1 + blen d) with (p + blen (b :: d)) by (unfold blen; cbn [length]; lia). exact A.
Qed.
Lemma advance_stop m p os q g : advance m p os q g -> g = false -> m q = None.
Proof. induction 1; intros; [assumption|discriminate|auto]. Qed.

(** ** The size counter *)
Definition size_ok (s : sink) : Prop := k_size s = u64 (Z.of_nat (length (flat_map byte_of (observed s)))).

(** ** Delivering *)
Lemma completed_unit us : any_completed us = true -> exists u, In u us /\ u_done u = true /\ u_skip u = false.
Proof.
  unfold any_completed. intros H. apply existsb_exists in H. destruct H as (u & I & E). exists u.
  apply andb_true_iff in E. destruct E as (E1 & E2). split; [exact I|]. split; [exact E2|]. destruct (u_skip u); [discriminate|reflexivity].
Qed.
Definition same_buffer (s s' : sink) : Prop :=
  k_auto s' = k_auto s /\ k_init s' = k_init s /\ k_trim s' = k_trim s /\ k_chunks s' = k_chunks s.

Lemma deliver_data d rseq s : d <> [] -> 0 <= rseq < 2 ^ 64 -> size_ok s ->
  match deliver (Some d) rseq (rseq + blen d) s with
  | SCrash => False
  | SThrow e s' => e = ParseError /\ exists u, In u (k_units s') /\ u_done u = true /\ u_skip u = false
  | SOk r s' => r = true /\ k_cur s' = rseq + blen d /\ k_last s' = rseq + blen d /\ same_buffer s s'
                /\ observed s' = observed s ++ obs_data rseq d /\ size_ok s'
  end.
Proof.
  intros NE R SZ. unfold deliver. destruct d as [|b0 d0]; [congruence|]. set (d := b0 :: d0) in *.
  destruct (any_completed (k_units (set_size s (u64 (k_size s + blen d))))) eqn:AC.
  - split; [reflexivity|]. apply completed_unit, AC.
  - cbn [k_cur k_last set_last set_cur log set_units set_size k_auto k_init k_trim k_chunks].
    assert (OB : observed (set_last (set_cur (log (set_units (set_size s (u64 (k_size s + blen d)))
       (map (feed d) (k_units s))) [EvData (aseq s rseq) d]) (rseq + blen d)) (rseq + blen d)) = observed s ++ obs_data rseq d).
    { unfold observed. cbn [k_init k_log set_last set_cur log set_units set_size]. rewrite flat_map_app. f_equal.
      cbn [flat_map obs_of]. unfold aseq. rewrite rseq_aseq by exact R. apply app_nil_r. }
    split; [reflexivity|]. split; [reflexivity|]. split; [reflexivity|]. split; [repeat split; reflexivity|].
    split; [exact OB|].
    unfold size_ok. cbn [k_units] in OB |- *.
    change (k_units (set_size s (u64 (k_size s + blen d)))) with (k_units s).
    change (aseq (set_size s (u64 (k_size s + blen d))) rseq) with (aseq s rseq).
    rewrite OB. cbn [k_size set_last set_cur log set_units set_size].
    rewrite flat_map_app, app_length, flat_obs_data. rewrite SZ. unfold u64, blen.
    rewrite Zplus_mod_idemp_l. f_equal. lia.
Qed.

Lemma wfc_cells c p : wfc c -> forall d, c_data c = Some d -> forall i b, nth_error d i = Some b ->
  c_seq c <= p -> cell_of c (c_seq c + Z.of_nat i) = Some (Byte b).
Proof.
  intros W d E i b N _. unfold cell_of. rewrite E. replace (Z.to_nat (c_seq c + Z.of_nat i - c_seq c)) with i by lia.
  rewrite N. reflexivity.
Qed.

(** sink.cc:273-288: the loop of _tryDeliver on an orderly buffer starting at or after the current position. *)
Lemma deliver_loop_spec l : forall s,
  0 <= k_last s < 2 ^ 64 -> wfl (k_last s) l -> k_cur s = k_last s -> size_ok s ->
  match deliver_loop l s with
  | SCrash => False
  | SThrow e s' => e = ParseError /\ exists u, In u (k_units s') /\ u_done u = true /\ u_skip u = false
  | SOk _ s' => exists os q g l1 l2,
      advance (look l) (k_last s) os q g
      /\ l = l1 ++ l2 /\ Forall (fun c => c_seq c < c_upper c <= q) l1 /\ wfl q l2
      /\ k_last s <= q < 2 ^ 64 /\ k_cur s' = q /\ k_last s' = q
      /\ k_auto s' = k_auto s /\ k_init s' = k_init s
      /\ observed s' = observed s ++ os /\ size_ok s'
      /\ ((k_chunks s' = k_chunks s /\ k_trim s' = k_trim s)
          \/ (k_auto s = true /\ exists a, a <= q /\ k_chunks s' = snd (trim_loop a q (aseq s) (k_chunks s))))
  end.
Proof.
  induction l as [|c l IH]; intros s LR W CL SZ; cbn [deliver_loop].
  - exists [], (k_last s), false, [], [].
    split; [apply adv_wait; reflexivity|].
    rewrite (app_nil_r (observed s)). split; [reflexivity|]. split; [constructor|]. split; [exact Logic.I|]. split; [lia|].
    split; [exact CL|]. repeat (split; [solve [reflexivity|assumption]|]). left. split; reflexivity.
  - cbn [wfl] in W. destruct W as (W1 & W2 & W3). pose proof W2 as (C0 & C1 & C2 & CD).
    destruct (Z.eqb_spec (c_seq c) (k_last s)) as [EQ|NE].
    + assert (U1 : u64 (k_last s + u64 (c_upper c - c_seq c)) = c_upper c)
        by (rewrite (u64_id (c_upper c - c_seq c)) by lia; rewrite u64_id; lia).
      rewrite U1. set (s1 := set_last s (c_upper c)).
      destruct (c_data c) as [d|] eqn:ED.
      * specialize (CD d eq_refl).
        assert (DN : d <> []) by (intros ->; unfold blen in CD; cbn [length] in CD; lia).
        pose proof (deliver_data d (c_seq c) s1 DN ltac:(lia) SZ) as DD.
        replace (c_seq c + blen d) with (c_upper c) in DD by lia.
        match type of DD with match ?A with _ => _ end => match goal with |- context[sbind ?B _] => change B with A end;
          destruct A as [r s2|e s2|]; cbn [sbind]; [|exact DD|exact DD] end.
        destruct DD as (-> & D1 & D2 & (D3 & D4 & D5 & D6) & D7 & D8). cbn match.
        specialize (IH s2). rewrite D2 in IH. specialize (IH ltac:(lia) W3 D1 D8).
        destruct (deliver_loop l s2) as [u s3|e s3|]; [|exact IH|exact IH].
        destruct IH as (os & q & g & l1 & l2 & A & SP & F1 & WQ & QR & Q1 & Q2 & Q3 & Q4 & Q5 & Q6 & Q7).
        exists (obs_data (c_seq c) d ++ os), q, g, (c :: l1), l2.
        split.
        { rewrite <- EQ. apply advance_data.
          - intros i b N. assert (i < length d)%nat by (apply nth_error_Some; congruence).
            cbn [look]. unfold blen in CD. replace ((c_seq c <=? c_seq c + Z.of_nat i) && (c_seq c + Z.of_nat i <? c_upper c)) with true by lia.
            apply (wfc_cells c (c_seq c) W2 d ED i b N). lia.
          - replace (c_seq c + blen d) with (c_upper c) by lia. eapply advance_ext; [|exact A].
            intros x Hx. cbn [look]. replace (x <? c_upper c) with false by lia. rewrite andb_false_r. reflexivity. }
        split; [cbn [app]; rewrite SP; reflexivity|]. split; [constructor; [lia|exact F1]|]. split; [exact WQ|].
        split; [lia|]. split; [exact Q1|]. split; [exact Q2|]. split; [rewrite Q3, D3; reflexivity|]. split; [rewrite Q4, D4; reflexivity|].
        split. { rewrite Q5, D7, <- app_assoc. reflexivity. }
        split; [exact Q6|].
        destruct Q7 as [(Q7 & Q8) | (Q7 & a & Q8 & Q9)].
        -- left. rewrite Q7, D6, Q8, D5. split; reflexivity.
        -- right. split; [rewrite <- Q7; symmetry; exact D3|]. exists a. split; [exact Q8|].
           rewrite Q9, D6. unfold aseq. rewrite D4. reflexivity.
      * (* a gap *)
        unfold deliver. cbn [k_cur set_last s1]. replace (k_cur s =? c_upper c) with false by lia. cbn [sbind].
        exists [OMissing (k_last s) (c_upper c - k_last s)], (c_upper c), true, [c], l.
        split.
        { apply adv_gap. cbn [look]. replace ((c_seq c <=? k_last s) && (k_last s <? c_upper c)) with true by lia.
          unfold cell_of. rewrite ED. reflexivity. }
        split; [reflexivity|]. split; [constructor; [lia|constructor]|]. split; [exact W3|]. split; [lia|].
        assert (AQ : forall s', k_init s' = k_init s -> u64 (aseq s1 (c_seq c) - k_init s') = k_last s).
        { intros s' E. unfold aseq. rewrite E. cbn [k_init set_last s1]. rewrite rseq_aseq by lia. exact EQ. }
        assert (TE : forall a cur f ll, Forall silent (fst (trim_loop a cur f ll))).
        { clear. intros a cur f ll. induction ll as [|c ll IH]; cbn [trim_loop]; [constructor|].
          destruct (a <=? c_seq c); [constructor|]. destruct (c_data c); [|exact IH]. cbn [fst].
          apply Forall_app. split; [|exact IH]. destruct (cur <? c_seq c); [constructor; [exact Logic.I|constructor]|constructor]. }
        set (s2 := set_cur (log s1 [EvGap (aseq s1 (c_seq c)) (u64 (c_upper c - c_seq c))]) (c_upper c)).
        assert (OB : observed s2 = observed s ++ [OMissing (k_last s) (c_upper c - k_last s)]).
        { unfold observed, s2. cbn [k_init k_log set_cur log set_last s1]. rewrite flat_map_app. f_equal.
          cbn [flat_map obs_of app]. change (k_init s) with (k_init s1) at 1. rewrite (AQ s1) by reflexivity.
          rewrite u64_id by lia. rewrite EQ. reflexivity. }
        assert (OB' : observed (do_trim (c_seq c) s2) = observed s2).
        { unfold observed, do_trim. cbn [k_init k_log set_trim set_chunks log]. rewrite flat_map_app, (silent_obs _ (fst _)) by apply TE.
          apply app_nil_r. }
        assert (SZ2 : size_ok s2).
        { unfold size_ok. rewrite OB, flat_map_app, app_length. cbn [flat_map byte_of app length]. rewrite Nat.add_0_r. exact SZ. }
        destruct (k_auto s2) eqn:AU.
        -- repeat split.
           ++ rewrite OB'. exact OB.
           ++ unfold size_ok. rewrite OB'. exact SZ2.
           ++ right. split; [exact AU|]. exists (c_seq c). split; [lia|]. reflexivity.
        -- repeat split; auto.
    + (* nothing at the current position *)
      specialize (IH s LR).
      assert (WL : wfl (k_last s) l) by (eapply wfl_weaken; [|exact W3]; lia).
      specialize (IH WL CL SZ).
      destruct (deliver_loop l s) as [u s3|e s3|]; [|exact IH|exact IH].
      destruct IH as (os & q & g & l1 & l2 & A & SP & F1 & WQ & QR & REST).
      assert (N1 : look l (k_last s) = None) by (apply (look_below (c_upper c)); [exact W3|lia]).
      assert (os = [] /\ q = k_last s /\ g = false) as (-> & -> & ->).
      { inversion A; subst; try congruence. auto. }
      exists [], (k_last s), false, [], (c :: l).
      split. { apply adv_wait. cbn [look]. replace (c_seq c <=? k_last s) with false by lia. exact N1. }
      split; [reflexivity|]. split; [constructor|]. split; [cbn [wfl]; auto|]. split; [lia|]. exact REST.
Qed.

(** Chunks before the current position are passed over. *)
Lemma deliver_loop_skip l1 l2 s : Forall (fun c => c_seq c < k_last s) l1 -> deliver_loop (l1 ++ l2) s = deliver_loop l2 s.
Proof.
  induction 1 as [|c l1 H _ IH]; cbn [app deliver_loop]; [reflexivity|].
  replace (c_seq c =? k_last s) with false by lia. exact IH.
Qed.

(** ** Trimming *)
Lemma trim_silent a cur f l : Forall silent (fst (trim_loop a cur f l)).
Proof.
  induction l as [|c l IH]; cbn [trim_loop]; [constructor|].
  destruct (a <=? c_seq c); [constructor|]. destruct (c_data c); [|exact IH]. cbn [fst].
  apply Forall_app. split; [|exact IH]. destruct (cur <? c_seq c); [constructor; [exact Logic.I|constructor]|constructor].
Qed.
Lemma trim_chunks a cur f l1 l2 : Forall (fun c => c_seq c < a) l1 -> wfl a l2 ->
  snd (trim_loop a cur f (l1 ++ l2)) = l2.
Proof.
  intros F W. induction F as [|c l1 H _ IH]; cbn [app].
  - destruct l2 as [|c l2]; [reflexivity|]. cbn [trim_loop]. cbn [wfl] in W. replace (a <=? c_seq c) with true by lia. reflexivity.
  - cbn [trim_loop]. replace (a <=? c_seq c) with false by lia. destruct (c_data c); cbn [snd]; exact IH.
Qed.
(** Trimming in two steps. *)
Lemma trim_twice a b cur f l : a <= b -> exists l1, l = l1 ++ snd (trim_loop a cur f l) /\ Forall (fun c => c_seq c < b) l1.
Proof.
  intros AB. induction l as [|c l (l1 & E & F)]; cbn [trim_loop]; [exists []; auto|].
  destruct (Z.leb_spec a (c_seq c)); [exists []; auto|].
  exists (c :: l1). split; [|constructor; [lia|exact F]].
  destruct (c_data c); cbn [snd app]; rewrite <- E; reflexivity.
Qed.
Lemma observed_trim a s : observed (do_trim a s) = observed s.
Proof.
  unfold observed, do_trim. cbn [k_init k_log set_trim set_chunks log].
  rewrite flat_map_app, (silent_obs _ (fst _)) by apply trim_silent. apply app_nil_r.
Qed.

Lemma split_suffix {A} (a b c d : list A) : a ++ b = c ++ d -> (length a <= length c)%nat -> exists e, b = e ++ d /\ c = a ++ e.
Proof.
  revert c. induction a as [|x a IH]; intros c E L; cbn [app length] in *; [exists c; auto|].
  destruct c as [|y c]; cbn [app length] in *; [lia|]. injection E as <- E.
  destruct (IH c E) as (e & -> & ->); [lia|]. exists e. auto.
Qed.
Lemma Forall_wfl_len q l1 l2 x y : l1 ++ l2 = x ++ y -> Forall (fun c => c_seq c < q) l1 -> wfl q y ->
  (length l1 <= length x)%nat.
Proof.
  revert x. induction l1 as [|c l1 IH]; intros x E F W; cbn [app length] in *; [lia|].
  destruct x as [|c' x]; cbn [app length] in *.
  - subst y. cbn [wfl] in W. inversion F; subst. lia.
  - injection E as <- E. inversion F; subst. specialize (IH x E). assert (length l1 <= length x)%nat by auto. lia.
Qed.

(** sink.cc:267-292 _tryDeliver on a buffer whose part from index [c] on starts at or after the current position. *)
Lemma try_deliver_spec s pre l :
  k_chunks s = pre ++ l -> Forall (fun c => c_seq c < k_last s) pre ->
  0 <= k_last s < 2 ^ 64 -> wfl (k_last s) l -> k_cur s = k_last s -> size_ok s ->
  match try_deliver (length pre) s with
  | SCrash => False
  | SThrow e s' => e = ParseError /\ exists u, In u (k_units s') /\ u_done u = true /\ u_skip u = false
  | SOk _ s' => exists os q g l1 l2,
      advance (look l) (k_last s) os q g
      /\ l = l1 ++ l2 /\ Forall (fun c => c_seq c < c_upper c <= q) l1 /\ wfl q l2
      /\ k_last s <= q < 2 ^ 64 /\ k_cur s' = q /\ k_last s' = q
      /\ k_auto s' = k_auto s /\ k_init s' = k_init s
      /\ observed s' = observed s ++ os /\ size_ok s'
      /\ k_chunks s' = (if k_auto s then l2 else k_chunks s)
      /\ k_trim s' = (if k_auto s then q else k_trim s)
  end.
Proof.
  intros K FP LR W CL SZ. unfold try_deliver. rewrite K, skipn_app, skipn_all, Nat.sub_diag. cbn [skipn app].
  pose proof (deliver_loop_spec l s LR W CL SZ) as D.
  destruct (deliver_loop l s) as [u s1|e s1|]; cbn [sbind]; [|exact D|exact D].
  destruct D as (os & q & g & l1 & l2 & A & SP & F1 & WQ & QR & Q1 & Q2 & Q3 & Q4 & Q5 & Q6 & Q7).
  exists os, q, g, l1, l2.
  split; [exact A|]. split; [exact SP|]. split; [exact F1|]. split; [exact WQ|]. split; [exact QR|].
  assert (FA : Forall (fun c => c_seq c < q) (pre ++ l1)).
  { apply Forall_app. split; [eapply Forall_impl; [|exact FP]; cbn beta; intros; lia|].
    eapply Forall_impl; [|exact F1]; cbn beta; intros; lia. }
  rewrite Q3. destruct (k_auto s) eqn:AU.
  - rewrite Q2. split; [exact Q1|]. split; [exact Q2|]. split; [exact Q3|]. split; [exact Q4|].
    split; [rewrite observed_trim; exact Q5|]. split; [unfold size_ok; rewrite observed_trim; exact Q6|].
    split; [|reflexivity].
    unfold do_trim. cbn [k_chunks set_trim set_chunks].
    destruct Q7 as [(Q7 & _) | (_ & a & Q8 & Q9)].
    + rewrite Q7, K, SP, app_assoc. apply trim_chunks; assumption.
    + destruct (trim_twice a q q (aseq s) (k_chunks s) Q8) as (e & E1 & E2).
      rewrite <- Q9 in E1.
      assert (EE : e ++ k_chunks s1 = (pre ++ l1) ++ l2) by (rewrite <- E1, K, SP, app_assoc; reflexivity).
      destruct (split_suffix _ _ _ _ EE) as (f & G1 & G2).
      { eapply (Forall_wfl_len q); [exact EE|exact E2|exact WQ]. }
      rewrite G1. apply trim_chunks; [|exact WQ]. rewrite G2 in FA. apply Forall_app in FA. tauto.
  - split; [exact Q1|]. split; [exact Q2|]. split; [exact Q3|]. split; [exact Q4|]. split; [exact Q5|]. split; [exact Q6|].
    destruct Q7 as [(Q7 & Q8) | (Q7 & _)]; [rewrite <- K; auto|congruence].
Qed.
