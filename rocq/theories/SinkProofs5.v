(** The sink simulates the specification of reassembly: the operations. *)
From Verif Require Import Base BytesModel SinkModel SinkSpec SinkProofs SinkProofs2 SinkProofs3 SinkProofs4.
Open Scope Z_scope.

Lemma data_cells_nth a d n b : nth_error d n = Some b -> data_cells a d (a + Z.of_nat n) = Some (Byte b).
Proof.
  intros H. assert (n < length d)%nat by (apply nth_error_Some; congruence). unfold data_cells, blen.
  replace ((a <=? a + Z.of_nat n) && (a + Z.of_nat n <? a + Z.of_nat (length d))) with true by lia.
  replace (Z.to_nat (a + Z.of_nat n - a)) with n by lia. rewrite H. reflexivity.
Qed.
Lemma data_cells_out a d p : ~ (a <= p < a + blen d) -> data_cells a d p = None.
Proof. intros H. unfold data_cells. destruct ((a <=? p) && (p <? a + blen d)) eqn:E; [lia|reflexivity]. Qed.

(** The fast path of _newData. *)
Lemma fast_write i s r stale live a d :
  Inv true i s r stale live -> k_chunks s = [] -> a = r_pos r -> d <> [] -> a + blen d < 2 ^ 64 ->
  good true i r (RWrite a d) s (sbind (deliver (Some d) a (a + blen d) s) (fun _ s => SOk tt s)).
Proof.
  intros [VA VI VC VP VL VT VZ VK VW VS VLK VWI VN VOFF] CE -> DN LB.
  rewrite CE in VK. symmetry in VK. apply app_eq_nil in VK. destruct VK as (-> & ->).
  pose proof (blen_pos d DN) as BP.
  pose proof (deliver_data d (r_pos r) s DN VP VZ) as D.
  destruct (deliver (Some d) (r_pos r) (r_pos r + blen d) s) as [b s'|e s'|]; cbn [sbind good]; [|left; exact D|exact D].
  destruct D as (_ & D1 & D2 & (D3 & D4 & D5 & D6) & D7 & D8).
  assert (MN : forall p, r_pos r <= p -> r_map r p = None) by (intros p Hp; rewrite <- VLK by exact Hp; reflexivity).
  assert (NX : first_wins (r_map r) (data_cells (r_pos r) d) (r_pos r + blen d) = None).
  { unfold first_wins. rewrite MN by lia. apply data_cells_out. lia. }
  exists (mkR (first_wins (r_map r) (data_cells (r_pos r) d)) ((r_pos r, r_pos r + blen d) :: r_ext r) (r_pos r + blen d) false),
    (obs_data (r_pos r) d), [], [].
  split.
  { apply (rs_go r (RWrite (r_pos r) d)). cbn [target provide fst]. rewrite <- (app_nil_r (obs_data (r_pos r) d)).
    apply advance_data; [|apply adv_wait; exact NX].
    intros n b' N. unfold first_wins. rewrite MN by lia. apply data_cells_nth. exact N. }
  split; [|exact D7].
  constructor; cbn [r_pos r_map r_ext r_gap app]; auto; try congruence; try lia; try discriminate.
  - intros p Hp. unfold first_wins. rewrite MN by lia. rewrite data_cells_out by lia. reflexivity.
Qed.
Lemma fast_gap i s r stale live a n :
  Inv true i s r stale live -> k_chunks s = [] -> a = r_pos r -> 0 < n -> a + n < 2 ^ 64 ->
  good true i r (RGap a n) s (sbind (deliver None a (a + n) s) (fun _ s => SOk tt s)).
Proof.
  intros [VA VI VC VP VL VT VZ VK VW VS VLK VWI VN VOFF] CE -> NP LB.
  rewrite CE in VK. symmetry in VK. apply app_eq_nil in VK. destruct VK as (-> & ->).
  unfold deliver. replace (k_cur s =? r_pos r + n) with false by lia. cbn [sbind good].
  assert (MN : forall p, r_pos r <= p -> r_map r p = None) by (intros p Hp; rewrite <- VLK by exact Hp; reflexivity).
  set (s' := set_cur (log s [EvGap (aseq s (r_pos r)) (u64 (r_pos r + n - r_pos r))]) (r_pos r + n)).
  assert (OB : observed s' = observed s ++ [OMissing (r_pos r) n]).
  { unfold observed, s'. cbn [k_init k_log set_cur log]. rewrite flat_map_app. f_equal. cbn [flat_map obs_of app].
    unfold aseq. rewrite rseq_aseq by exact VP. rewrite u64_id by lia. do 2 f_equal. lia. }
  exists (mkR (first_wins (r_map r) (gap_cells (r_pos r) n)) ((r_pos r, r_pos r + n) :: r_ext r) (r_pos r + n) true),
    [OMissing (r_pos r) n], [], [].
  split.
  { replace [OMissing (r_pos r) n] with [OMissing (r_pos r) (r_pos r + n - r_pos r)] by (do 2 f_equal; lia).
    apply (rs_go r (RGap (r_pos r) n)). cbn [target provide fst]. apply adv_gap.
    unfold first_wins, gap_cells. rewrite MN by lia. replace ((r_pos r <=? r_pos r) && (r_pos r <? r_pos r + n)) with true by lia. reflexivity. }
  split; [|exact OB].
  constructor; cbn [r_pos r_map r_ext r_gap app k_auto k_init k_cur k_last k_trim k_chunks s' set_cur log]; auto; try lia; try discriminate.
  - unfold size_ok. rewrite OB, flat_map_app, app_length. cbn [flat_map byte_of app length]. rewrite Nat.add_0_r. exact VZ.
  - intros p Hp. unfold first_wins, gap_cells. rewrite MN by lia. replace (p <? r_pos r + n) with false by lia. rewrite andb_false_r. reflexivity.
Qed.

(** A segment that ends at or before the reader's position. *)
Lemma old_write i s r stale live a d :
  Inv true i s r stale live -> r_gap r = false -> 0 <= a -> d <> [] -> a + blen d <= r_pos r ->
  good true i r (RWrite a d) s (new_data (Some d) a (blen d) s).
Proof.
  intros V RG A0 DN OL. pose proof V as [VA VI VC VP VL VT VZ VK VW VS VLK VWI VN VOFF].
  destruct (VN RG) as (LP & MP). pose proof (blen_pos d DN) as BP.
  set (r' := mkR (first_wins (r_map r) (data_cells a d)) ((a, a + blen d) :: r_ext r) (r_pos r) false).
  assert (ST : rstep r (RWrite a d) [] r').
  { apply (rs_go r (RWrite a d)). cbn [target provide fst]. apply adv_wait. unfold first_wins. rewrite MP. apply data_cells_out. lia. }
  assert (V' : forall s' st', k_auto s' = true -> k_init s' = i -> k_cur s' = r_pos r -> k_last s' = r_pos r -> 0 <= k_trim s' <= r_pos r ->
    size_ok s' -> k_chunks s' = st' ++ live -> Forall (stalec (r_pos r)) st' -> Inv true i s' r' st' live).
  { intros s' st' H1 H2 H3 H4 H5 H6 H7 H8. constructor; cbn [r_pos r_map r_ext r_gap r']; auto; try lia; try discriminate.
    - rewrite H4. exact H8.
    - intros p Hp. rewrite VLK by exact Hp. unfold first_wins. destruct (r_map r p); [reflexivity|]. rewrite data_cells_out by lia. reflexivity.
    - eapply Forall_impl; [|exact VWI]. intros c. apply within_mono.
    - intros _. split; [exact H4|]. unfold first_wins. rewrite MP. apply data_cells_out. lia. }
  assert (V0 : Inv true i s r' stale live) by (apply V'; auto; rewrite <- LP; exact VS).
  assert (KEEP : forall s', observed s' = observed s -> observed s' = observed s ++ []) by (intros s' H; rewrite app_nil_r; exact H).
  unfold new_data. replace (blen d =? 0) with false by lia. rewrite VC.
  replace (a =? r_pos r) with false by lia. rewrite andb_false_r. cbv zeta.
  rewrite (u64_id (a + blen d)) by lia.
  destruct (Z.leb_spec (a + blen d) (k_trim s)) as [TR|TR].
  { cbn [good]. exists r', [], stale, live. auto. }
  set (a' := Z.max a (k_trim s)). set (d' := skipn (Z.to_nat (a' - a)) d).
  assert (BD : blen d' = a + blen d - a') by (unfold d', a'; rewrite blen_skipn; lia).
  assert (CUT : (if a <? k_trim s then
               match Some d with
               | Some d => rmap (fun d' => (Some d', u64 (a + u64 (k_trim s - a)))) (sub d (u64 (k_trim s - a)) (blen d))
               | None => Ok (None, u64 (a + u64 (k_trim s - a)))
               end
             else Ok (Some d, a)) = Ok (Some d', a')).
  { unfold d', a'. destruct (Z.ltb_spec a (k_trim s)).
    - rewrite (u64_id (k_trim s - a)) by lia. rewrite sub_tail by lia. cbn [rmap].
      replace (Z.max a (k_trim s)) with (k_trim s) by lia. do 3 f_equal. rewrite u64_id; lia.
    - replace (Z.max a (k_trim s)) with a by lia. rewrite Z.sub_diag. reflexivity. }
  match goal with |- context[scall ?B _ _] => replace B with (Ok (Some d', a')) by (symmetry; exact CUT) end.
  cbn [scall]. clear CUT.
  destruct (k_chunks s) as [|c0 cs] eqn:EK.
  - (* nothing buffered *)
    symmetry in VK. apply app_eq_nil in VK. destruct VK as (-> & ->). cbn [sbind k_chunks set_chunks nth_error].
    set (x := mkChunk (Some d') a' (u64 (a' + blen d))). cbn [k_last set_chunks c_seq c_upper].
    change (c_seq x) with a'. change (c_upper x) with (u64 (a' + blen d)).
    assert (U : 0 <= u64 (a' + blen d) < 2 ^ 64) by (unfold u64; apply Z.mod_pos_bound; lia).
    destruct ((k_last s <? a') || (u64 (a' + blen d) <=? k_last s)) eqn:EX.
    + cbn [good]. exists r', [], [x], []. split; [exact ST|]. split; [|apply KEEP; reflexivity].
      apply V'; auto. constructor; [|constructor]. unfold stalec, x. cbn [c_seq c_upper]. unfold a' in *. lia.
    + unfold try_deliver. cbn [k_chunks set_chunks skipn deliver_loop c_seq k_last].
      change (c_seq x) with a'. replace (a' =? k_last s) with false by (unfold a'; lia). cbn [sbind k_auto set_chunks k_last]. rewrite VA.
      cbn [good]. exists r', [], [], []. split; [exact ST|]. split.
      * apply V'; cbn [k_auto k_init k_cur k_last k_trim do_trim set_trim set_chunks log]; auto; try lia.
        -- unfold size_ok. rewrite observed_trim. exact VZ.
        -- unfold do_trim. cbn [k_chunks set_trim set_chunks k_cur aseq]. cbn [trim_loop]. change (c_seq x) with a'.
           replace (k_last s <=? a') with false by (unfold a'; lia). cbn [c_data]. reflexivity.
      * apply KEEP. rewrite observed_trim. reflexivity.
  - assert (NE : stale ++ live <> []) by (rewrite <- VK; discriminate).
    rewrite <- EK in *. clear EK.
    pose proof (add_old stale [] (S (length (k_chunks s))) s d' a' (a + blen d) 0 live (r_pos r)) as AO.
    cbn [app length] in AO.
    specialize (AO VK NE (Forall_nil _) ltac:(rewrite <- LP; exact VS) VW ltac:(unfold a'; lia) ltac:(unfold a'; lia) OL ltac:(lia) ltac:(lia)
      ltac:(rewrite VK, app_length; lia) ltac:(lia)).
    match type of AO with match ?A with _ => _ end => match goal with |- context[sbind ?B _] => change B with A end;
      destruct A as [q s'|e s'|]; cbn [sbind] end.
    + destruct AO as (idx & post' & evs & x & -> & -> & SI & FP & NX & UX).
      cbn [k_chunks log set_chunks k_last]. rewrite NX.
      replace (c_upper x <=? k_last s) with true by lia. rewrite orb_true_r. cbn [good].
      exists r', [], post', live. split; [exact ST|]. split; [|apply KEEP, observed_silent; exact SI].
      apply V'; auto. apply size_silent; assumption.
    + cbn [good]. right. subst e. split; [reflexivity|]. split; [reflexivity|]. exact OL.
    + exact AO.
Qed.

(** sink.cc:233-246 *)
Lemma skip_good auto i s r stale live t :
  Inv auto i s r stale live -> r_pos r <= t < 2 ^ 64 -> (forall a b, In (a, b) (r_ext r) -> ~ (a < t < b)) ->
  good auto i r (RSkip t) s (do_skip t s).
Proof.
  intros [VA VI VC VP VL VT VZ VK VW VS VLK VWI VN VOFF] HT HE.
  assert (NSTR : Forall (fun c => ~ (c_seq c < t < c_upper c)) live).
  { rewrite Forall_forall in *. intros c Hc X. destruct (VWI c Hc) as (a & b & I & A & B). apply (HE a b I). lia. }
  destruct (split_at t live (r_pos r) VW NSTR) as (l1 & l2 & SP & F1 & W2 & _).
  assert (LK2 : forall p, t <= p -> look l2 p = r_map r p).
  { intros p Hp. rewrite <- VLK by lia. rewrite SP. symmetry. apply look_skip. eapply Forall_impl; [|exact F1]; cbn beta; intros; lia. }
  assert (FB : Forall (fun c => c_seq c < t) (stale ++ l1)).
  { apply Forall_app. split; [eapply Forall_impl; [|exact VS]; intros c (C1 & C2); lia|].
    eapply Forall_impl; [|exact F1]; cbn beta; intros; lia. }
  unfold do_skip. cbv zeta.
  set (s1 := if k_auto s then do_trim t s else log s (undelivered_up_to t (aseq s) (k_chunks s))).
  assert (SU : forall f l, Forall silent (undelivered_up_to t f l)).
  { intros f l. induction l as [|c l IH]; cbn [undelivered_up_to]; [constructor|].
    destruct (t <=? c_seq c); [constructor|]. destruct (c_data c); [constructor; [exact Logic.I|exact IH]|exact IH]. }
  assert (S1 : observed s1 = observed s /\ k_auto s1 = auto /\ k_init s1 = i
               /\ k_chunks s1 = (if auto then l2 else (stale ++ l1) ++ l2) /\ k_trim s1 = (if auto then t else k_trim s)
               /\ k_size s1 = k_size s).
  { unfold s1. rewrite VA. destruct auto.
    - split; [apply observed_trim|]. split; [exact VA|]. split; [exact VI|]. split; [|split; reflexivity].
      unfold do_trim. cbn [k_chunks set_trim set_chunks]. rewrite VK, SP, app_assoc. apply trim_chunks; assumption.
    - split; [|split; [exact VA|split; [exact VI|split; [cbn [k_chunks log]; rewrite VK, SP, app_assoc; reflexivity|split; reflexivity]]]].
      unfold observed. cbn [k_init k_log log]. rewrite flat_map_app, (silent_obs _ _ (SU _ _)). apply app_nil_r. }
  destruct S1 as (S1 & S2 & S3 & S4 & S5 & S6). clearbody s1.
  set (s2 := log (set_last (set_cur s1 t) t) [EvSkipped (aseq (set_last (set_cur s1 t) t) t)]).
  assert (OB : observed s2 = observed s).
  { unfold observed, s2. cbn [k_init k_log log set_last set_cur]. rewrite flat_map_app. cbn [flat_map obs_of app]. rewrite app_nil_r. exact S1. }
  assert (VZ2 : size_ok s2) by (unfold size_ok; rewrite OB; unfold s2; cbn [k_size log set_last set_cur]; rewrite S6; exact VZ).
  set (pre := if auto then [] else stale ++ l1).
  assert (K2 : k_chunks s2 = pre ++ l2) by (cbn [k_chunks s2 log set_last set_cur]; rewrite S4; unfold pre; destruct auto; reflexivity).
  assert (FP : Forall (fun c => c_seq c < k_last s2) pre) by (cbn [k_last s2 log set_last]; unfold pre; destruct auto; [constructor|exact FB]).
  assert (SAME : try_deliver 0 s2 = try_deliver (length pre) s2).
  { unfold try_deliver. cbn [skipn]. rewrite K2, (deliver_loop_skip pre l2 s2 FP).
    rewrite skipn_app, skipn_all, Nat.sub_diag. reflexivity. }
  rewrite SAME.
  pose proof (try_deliver_spec s2 pre l2 K2 FP ltac:(cbn [k_last s2 log set_last]; lia) W2 eq_refl VZ2) as T.
  destruct (try_deliver (length pre) s2) as [u s'|e s'|]; cbn [good]; [|left; exact T|exact T].
  destruct T as (os & q & g & m1 & m2 & T1 & T2 & T3 & T4 & T5 & T6 & T7 & T8 & T9 & T10 & T11 & T12 & T13).
  cbn [k_last s2 log set_last] in T1, T5.
  assert (ADV : advance (r_map r) t os q g) by (eapply advance_ext; [|exact T1]; exact LK2).
  exists (mkR (r_map r) (r_ext r) q g), os, (if auto then [] else (stale ++ l1) ++ m1), m2.
  split; [apply (rs_go r (RSkip t)); exact ADV|].
  split; [|rewrite T10, OB; reflexivity].
  assert (WI2 : Forall (within (r_ext r)) m2).
  { rewrite SP, T2 in VWI. apply Forall_app in VWI. destruct VWI as (_ & X). apply Forall_app in X. tauto. }
  assert (LKM : forall p, q <= p -> look m2 p = r_map r p).
  { intros p Hp. rewrite <- LK2 by lia. rewrite T2. symmetry. apply look_skip. eapply Forall_impl; [|exact T3]; cbn beta; intros; lia. }
  assert (STP : g = false -> r_map r q = None) by (intros ->; eapply advance_stop; [exact ADV|reflexivity]).
  change (k_auto s2) with (k_auto s1) in *. change (k_init s2) with (k_init s1) in *. change (k_trim s2) with (k_trim s1) in *. rewrite S2 in *.
  constructor; cbn [r_pos r_map r_ext r_gap]; auto; try lia; try congruence.
  - rewrite T12. destruct auto; [reflexivity|]. rewrite K2. unfold pre. rewrite T2, app_assoc. reflexivity.
  - destruct auto; [constructor|]. destruct (VOFF eq_refl) as (O1 & O2 & O3 & O4). rewrite T7.
    rewrite VK, SP, T2, (app_assoc l1), app_assoc in O3. apply wfl_app in O3. destruct O3 as (O3 & _). rewrite app_assoc in O3.
    apply Forall_app. split.
    + apply Forall_app. split; [eapply Forall_impl; [|exact VS]; intros c (C1 & C2); split; lia|].
      rewrite Forall_forall in *. intros c Hc. specialize (F1 c Hc). cbn beta in F1. split; lia.
    + rewrite Forall_forall in *. intros c Hc. specialize (T3 c Hc). cbn beta in T3.
      assert (I : In c ((stale ++ l1) ++ m1)) by (apply in_or_app; right; exact Hc).
      destruct (wfl_in _ _ c O3 I) as (D1 & (D2 & _)). split; lia.
  - intros AF. destruct (VOFF AF) as (O1 & O2 & O3 & O4).
    rewrite T13, S5, T7, T12, K2. unfold pre. rewrite AF.
    replace ((stale ++ l1) ++ l2) with (k_chunks s) by (rewrite VK, SP, app_assoc; reflexivity). auto.
Qed.

(** sink.cc:248-265: trimming up to a position already passed *)
Lemma trim_good i s r stale live t :
  Inv true i s r stale live -> 0 <= t <= r_pos r -> good true i r (RTrim t) s (SOk tt (do_trim t s)).
Proof.
  intros [VA VI VC VP VL VT VZ VK VW VS VLK VWI VN VOFF] HT. cbn [good].
  assert (TS : exists stale', snd (trim_loop t (k_cur s) (aseq s) (stale ++ live)) = stale' ++ live /\ Forall (stalec (k_last s)) stale').
  { clear - VS VW HT. induction VS as [|c l H F IH]; cbn [app].
    - exists []. split; [|constructor]. change live with ([] ++ live) at 1. apply trim_chunks; [constructor|].
      eapply wfl_weaken; [|exact VW]. lia.
    - cbn [trim_loop]. destruct (t <=? c_seq c).
      + exists (c :: l). split; [reflexivity|constructor; assumption].
      + destruct (c_data c); cbn [snd]; exact IH. }
  destruct TS as (stale' & T1 & T2).
  assert (V' : forall g, (g = false -> k_last s = r_pos r /\ r_map r (r_pos r) = None) ->
    Inv true i (do_trim t s) (mkR (r_map r) (r_ext r) (r_pos r) g) stale' live).
  { intros g HN. constructor; cbn [r_pos r_map r_ext r_gap k_auto k_init k_cur k_last k_trim do_trim set_trim set_chunks log]; auto; try lia; try discriminate.
    - unfold size_ok. rewrite observed_trim. exact VZ.
    - unfold do_trim. cbn [k_chunks set_trim set_chunks]. rewrite VK. exact T1. }
  destruct (r_gap r) eqn:RG.
  - exists (mkR (r_map r) (r_ext r) (r_pos r) true), [], stale', live.
    split; [apply (rs_hold r (RTrim t)); auto|]. split; [apply V'; discriminate|]. rewrite observed_trim, app_nil_r. reflexivity.
  - exists (mkR (r_map r) (r_ext r) (r_pos r) false), [], stale', live.
    split; [apply (rs_go r (RTrim t)); apply adv_wait; apply VN; reflexivity|]. split; [apply V'; intros _; apply VN; reflexivity|].
    rewrite observed_trim, app_nil_r. reflexivity.
Qed.

(** Positions. *)
Lemma ordered_app lo a b mid top : ordered lo a mid -> ordered mid b top -> ordered lo (a ++ b) top.
Proof.
  revert lo. induction a as [|o a IH]; intros lo A B; cbn [app].
  - cbn [ordered] in A. destruct b as [|[p x|p n] b]; cbn [ordered] in *; [lia|split; [lia|tauto]|split; [lia|tauto]].
  - destruct o as [p x|p n]; cbn [ordered] in *; [split; [tauto|]; apply IH; tauto|].
    split; [tauto|]. split; [tauto|]. apply IH; tauto.
Qed.
Lemma advance_ordered m p os q g : (forall x e, m x = Some (Missing e) -> x < e) -> advance m p os q g -> ordered p os q.
Proof.
  intros H A. induction A as [p E|p e E|p b os q g E A IH]; cbn [ordered].
  - lia.
  - specialize (H p e E). lia.
  - split; [lia|exact IH].
Qed.
Definition gaps_fwd (m : seqmap) : Prop := forall x e, m x = Some (Missing e) -> x < e.
Lemma provide_fwd auto r o : gaps_fwd (r_map r) -> admissible auto r o -> gaps_fwd (fst (provide r o)).
Proof.
  intros G A x e. destruct o as [a d|a n|t|t]; cbn [provide fst]; try apply G.
  - unfold first_wins. destruct (r_map r x) eqn:E; [intros [= ->]; apply G; exact E|].
    unfold data_cells. destruct ((a <=? x) && (x <? a + blen d)); [|discriminate]. destruct (nth_error d (Z.to_nat (x - a))); discriminate.
  - unfold first_wins. destruct (r_map r x) eqn:E; [intros [= ->]; apply G; exact E|].
    unfold gap_cells. destruct ((a <=? x) && (x <? a + n)) eqn:R; [|discriminate]. intros [= <-]. lia.
Qed.
Lemma rstep_ordered auto r o os r' : gaps_fwd (r_map r) -> admissible auto r o -> rstep r o os r' ->
  ordered (r_pos r) os (r_pos r') /\ gaps_fwd (r_map r').
Proof.
  intros G A ST. pose proof (provide_fwd auto r o G A) as G'. inversion ST as [os0 q g ADV E1 E2|RG NS E1 E2]; subst; cbn [r_pos r_map].
  - split; [|exact G']. pose proof (advance_ordered _ _ _ _ _ G' ADV) as O.
    assert (r_pos r <= target r o) by (destruct o; cbn [target]; try lia; cbn [admissible] in A; lia).
    destruct os as [|[p x|p n] os]; cbn [ordered] in *; lia || (split; [lia|tauto]) || idtac.
  - cbn [ordered]. split; [lia|exact G'].
Qed.

(** Every admissible operation. *)
Lemma step_good auto i s r stale live o :
  Inv auto i s r stale live -> admissible auto r o -> good auto i r o s (sstep (call i o) s).
Proof.
  intros V AD. pose proof V as [VA VI VC VP VL VT VZ VK VW VS VLK VWI VN VOFF].
  destruct o as [a d|a n|t|t].
  - destruct AD as (A0 & DN & LB & AD).
    assert (ST : sstep (call i (RWrite a d)) s = new_data (Some d) a (blen d) s).
    { cbn [call sstep]. destruct d as [|b0 d0]; [congruence|]. unfold rseq_of. rewrite VI, rseq_aseq by (pose proof (blen_nonneg (b0 :: d0)); lia). reflexivity. }
    rewrite ST. pose proof (blen_pos d DN) as BP.
    assert (CASES : (auto = true /\ a + blen d <= r_pos r /\ r_gap r = false) \/
      (r_pos r <= a \/ (auto = false /\ ((a + blen d <= r_pos r) \/ forall p, a <= p < r_pos r -> r_map r p <> None)))).
    { destruct AD as [H | [(H1 & H2) | (H1 & H2)]]; [auto| |auto].
      cbn [old] in H1. destruct auto; [left|right]; auto. }
    destruct CASES as [(-> & OL & RG) | HP].
    + eapply old_write; eauto.
    + destruct (k_auto s && (match k_chunks s with [] => true | _ => false end) && (a =? k_cur s)) eqn:FAST.
      * unfold new_data. replace (blen d =? 0) with false by lia. rewrite FAST.
        apply andb_true_iff in FAST. destruct FAST as (FAST & EA). apply andb_true_iff in FAST. destruct FAST as (AU & CE).
        destruct auto; [|congruence]. rewrite u64_id by lia. eapply fast_write; eauto; [|lia].
        destruct (k_chunks s); [reflexivity|discriminate].
      * rewrite new_data_unfold; auto; try lia.
        -- rewrite u64_id by lia. eapply put_good; eauto. discriminate.
        -- rewrite u64_id by lia. destruct HP as [HP | (-> & HP)]; [lia|]. destruct (VOFF eq_refl) as (O1 & _). lia.
  - destruct AD as (A0 & NP & LB & FR).
    assert (ST : sstep (call i (RGap a n)) s = new_data None a n s).
    { cbn [call sstep]. unfold rseq_of. rewrite VI, rseq_aseq by lia. reflexivity. }
    rewrite ST.
    destruct (k_auto s && (match k_chunks s with [] => true | _ => false end) && (a =? k_cur s)) eqn:FAST.
    + unfold new_data. replace (n =? 0) with false by lia. rewrite FAST.
      apply andb_true_iff in FAST. destruct FAST as (FAST & EA). apply andb_true_iff in FAST. destruct FAST as (AU & CE).
      destruct auto; [|congruence]. rewrite u64_id by lia. eapply fast_gap; eauto; [|lia].
      destruct (k_chunks s); [reflexivity|discriminate].
    + rewrite new_data_unfold; auto; try lia.
      * rewrite u64_id by lia. eapply put_good; eauto. lia.
      * rewrite u64_id by lia. lia.
  - destruct AD as (HT & HE).
    assert (ST : sstep (call i (RSkip t)) s = do_skip t s).
    { cbn [call sstep]. unfold rseq_of. rewrite VI, rseq_aseq by lia. reflexivity. }
    rewrite ST. eapply skip_good; eauto.
  - destruct AD as (-> & HT).
    assert (ST : sstep (call i (RTrim t)) s = SOk tt (do_trim t s)).
    { cbn [call sstep]. unfold rseq_of. rewrite VI, rseq_aseq by lia. reflexivity. }
    rewrite ST. eapply trim_good; eauto.
Qed.

Lemma inv_fresh units auto i : Inv auto i (fresh units auto i) rinit [] [].
Proof.
  constructor; cbn [fresh k_auto k_init k_cur k_last k_trim k_chunks rinit r_pos r_map r_ext r_gap]; auto; try lia; try reflexivity.
  intros _. repeat split.
Qed.
Lemma follows_inv auto i ops : forall s r os stale live, Inv auto i s r stale live -> observed s = os ->
  ordered 0 os (r_pos r) -> gaps_fwd (r_map r) -> follows auto i ops s r os.
Proof.
  induction ops as [|o ops IH]; intros s r os stale live V OB OO GF; cbn [follows].
  - split; [exact OB|]. split; [exact OO|].
    split; [unfold sequence_number; rewrite (v_init _ _ _ _ _ _ V), (v_cur _ _ _ _ _ _ V); reflexivity|].
    split; [|exact Logic.I]. rewrite <- OB. apply (v_size _ _ _ _ _ _ V).
  - split; [exact OB|]. split; [exact OO|].
    split; [unfold sequence_number; rewrite (v_init _ _ _ _ _ _ V), (v_cur _ _ _ _ _ _ V); reflexivity|].
    split; [rewrite <- OB; apply (v_size _ _ _ _ _ _ V)|].
    intros AD. pose proof (step_good _ _ _ _ _ _ _ V AD) as G.
    destruct (sstep (call i o) s) as [u s'|e s'|]; cbn [good] in G; [|exact G|exact G].
    destruct G as (r' & os' & st' & lv' & G1 & G2 & G3). exists r', os'. split; [exact G1|].
    destruct (rstep_ordered auto r o os' r' GF AD G1) as (O1 & O2).
    eapply IH; [exact G2|rewrite G3, OB; reflexivity| |exact O2].
    eapply ordered_app; [exact OO|exact O1].
Qed.
