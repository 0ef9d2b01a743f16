(** The sink simulates the specification of reassembly. *)
From Verif Require Import Base BytesModel SinkModel SinkSpec SinkProofs SinkProofs2 SinkProofs3.
Open Scope Z_scope.

Definition within (ext : list (Z * Z)) (c : chunk) : Prop := exists a b, In (a, b) ext /\ a <= c_seq c /\ c_upper c <= b.

Record Inv (auto : bool) (i : Z) (s : sink) (r : rstate) (stale live : list chunk) : Prop := mkInv {
  v_auto : k_auto s = auto;
  v_init : k_init s = i;
  v_cur : k_cur s = r_pos r;
  v_pos : 0 <= r_pos r < 2 ^ 64;
  v_last : 0 <= k_last s <= r_pos r;
  v_trim : 0 <= k_trim s <= r_pos r;
  v_size : size_ok s;
  v_chunks : k_chunks s = stale ++ live;
  v_live : wfl (r_pos r) live;
  v_stale : Forall (stalec (k_last s)) stale;
  v_look : forall p, r_pos r <= p -> look live p = r_map r p;
  v_within : Forall (within (r_ext r)) live;
  v_normal : r_gap r = false -> k_last s = r_pos r /\ r_map r (r_pos r) = None;
  v_off : auto = false -> k_trim s = 0 /\ k_last s = r_pos r /\ wfl 0 (k_chunks s) /\
          (forall p, 0 <= p -> look (k_chunks s) p = r_map r p) }.

Lemma observed_silent s x evs : Forall silent evs -> observed (log (set_chunks s x) evs) = observed s.
Proof.
  intros F. unfold observed. cbn [k_init k_log log set_chunks]. rewrite flat_map_app, (silent_obs _ evs F). apply app_nil_r.
Qed.
Lemma size_silent s x evs : Forall silent evs -> size_ok s -> size_ok (log (set_chunks s x) evs).
Proof. intros F H. unfold size_ok. rewrite observed_silent by exact F. exact H. Qed.

(** ** Splitting a buffer at a position no chunk straddles *)
Lemma split_at q l : forall lo, wfl lo l -> Forall (fun c => ~ (c_seq c < q < c_upper c)) l ->
  exists l1 l2, l = l1 ++ l2 /\ Forall (fun c => 0 <= c_seq c < c_upper c /\ c_upper c <= q) l1 /\ wfl q l2 /\ wfl lo l2.
Proof.
  induction l as [|c l IH]; intros lo W F.
  - exists [], []. repeat split; constructor.
  - cbn [wfl] in W. destruct W as (A & B & C). pose proof B as (B0 & B1 & B2 & B3). inversion F as [|? ? F1 F2]; subst.
    destruct (Z.leb_spec (c_upper c) q).
    + destruct (IH _ C F2) as (l1 & l2 & -> & G1 & G2 & G3). exists (c :: l1), l2.
      split; [reflexivity|]. split; [constructor; [lia|exact G1]|]. split; [exact G2|]. eapply wfl_weaken; [|exact G3]. lia.
    + exists [], (c :: l). split; [reflexivity|]. split; [constructor|]. split; cbn [wfl]; (split; [lia|split; assumption]).
Qed.

(** ** Adding a segment: both ways _newData has *)
Definition put (data : option bytes) (rseq len rupper : Z) (s : sink) : sres (option nat) :=
  match k_chunks s with
  | [] => SOk (Some 0%nat) (set_chunks s [mkChunk data rseq (u64 (rseq + len))])
  | _ => add_and_check (S (length (k_chunks s))) data rseq rupper 0 s
  end.
Lemma put_spec s pre post data rseq len rupper lo :
  k_chunks s = pre ++ post -> Forall (fun c => c_upper c <= rseq) pre -> wfl lo post -> lo <= rseq ->
  0 <= rseq -> rseq < rupper -> rupper < 2 ^ 64 -> rupper = rseq + len ->
  (forall d, data = Some d -> blen d = rupper - rseq) ->
  (data = None -> forall p, rseq <= p < rupper -> look post p = None) ->
  exists j post' evs,
    put data rseq len rupper s = SOk (Some (length pre + j)%nat) (log (set_chunks s (pre ++ post')) evs)
    /\ Forall silent evs /\ wfl lo post'
    /\ (forall p, look post' p = first_wins (look post) (seg_cells data rseq rupper) p)
    /\ Forall (fun c => In c post \/ (rseq <= c_seq c /\ c_upper c <= rupper /\ look post (c_seq c) = None)) post'
    /\ placed data rseq rupper post post' j.
Proof.
  intros K F W L R0 R1 R2 RL HD HG. unfold put. destruct (k_chunks s) as [|c0 cs] eqn:EK.
  - symmetry in K. apply app_eq_nil in K. destruct K as (-> & ->).
    exists 0%nat, [mkChunk data rseq rupper], []. rewrite <- RL, u64_id by lia.
    split. { unfold log, set_chunks. cbn. rewrite app_nil_r. reflexivity. }
    split; [constructor|]. split.
    { cbn [wfl c_seq c_upper]. unfold wfc. cbn [c_seq c_upper c_data]. repeat split; auto; lia. }
    split.
    { intros p. unfold first_wins. cbn [look c_seq c_upper].
      destruct ((rseq <=? p) && (p <? rupper)) eqn:E.
      - apply seg_cell_of; [lia|exact HD|lia].
      - symmetry. apply seg_out; [exact HD|lia]. }
    split. { constructor; [|constructor]. right. cbn [c_seq c_upper look]. repeat split; intros; lia. }
    exists (mkChunk data rseq rupper). split; [reflexivity|]. left. cbn [c_seq c_upper look]. repeat split; intros; lia.
  - eapply add_spec; eauto.
    + rewrite EK. exact K.
    + rewrite <- K. discriminate.
    + rewrite K, app_length. lia.
    + lia.
Qed.

(** ** The rest of _newData once the segment is in the buffer *)
Definition settle (ic : option nat) (s : sink) : sres unit :=
  match ic with
  | None => SCrash
  | Some c =>
    match nth_error (k_chunks s) c with
    | None => SCrash
    | Some x => if (k_last s <? c_seq x) || (c_upper x <=? k_last s) then SOk tt s else try_deliver c s
    end
  end.
Lemma new_data_unfold data rseq len s :
  len <> 0 -> k_auto s && (match k_chunks s with [] => true | _ => false end) && (rseq =? k_cur s) = false ->
  u64 (rseq + len) <=? k_trim s = false -> rseq <? k_trim s = false ->
  new_data data rseq len s = sbind (put data rseq len (u64 (rseq + len)) s) settle.
Proof.
  intros H1 H2 H3 H4. unfold new_data. replace (len =? 0) with false by lia. rewrite H2. cbv zeta. rewrite H3, H4. reflexivity.
Qed.

Definition good (auto : bool) (i : Z) (r : rstate) (o : rop) (s : sink) (x : sres unit) : Prop :=
  match x with
  | SOk _ s' => exists r' os' stale live, rstep r o os' r' /\ Inv auto i s' r' stale live /\ observed s' = observed s ++ os'
  | SThrow e s' => (e = ParseError /\ exists u, In u (k_units s') /\ u_done u = true /\ u_skip u = false)
                   \/ (e = OutOfRange /\ auto = true /\ old r o)
  | SCrash => False
  end.

(** The buffer after adding a segment. *)
Record Ins (auto : bool) (i : Z) (r : rstate) (o : rop) (s1 : sink) (idx : nat) (stale live : list chunk) : Prop := mkIns {
  n_auto : k_auto s1 = auto;
  n_init : k_init s1 = i;
  n_cur : k_cur s1 = r_pos r;
  n_pos : 0 <= r_pos r < 2 ^ 64;
  n_last : 0 <= k_last s1 <= r_pos r;
  n_trim : 0 <= k_trim s1 <= r_pos r;
  n_size : size_ok s1;
  n_chunks : k_chunks s1 = stale ++ live;
  n_live : wfl (r_pos r) live;
  n_stale : Forall (stalec (k_last s1)) stale;
  n_look : forall p, r_pos r <= p -> look live p = fst (provide r o) p;
  n_within : Forall (within (snd (provide r o))) live;
  n_normal : r_gap r = false -> k_last s1 = r_pos r;
  n_off : auto = false -> k_trim s1 = 0 /\ k_last s1 = r_pos r /\ wfl 0 (k_chunks s1) /\
          (forall p, 0 <= p -> look (k_chunks s1) p = fst (provide r o) p);
  n_idx : exists x, nth_error (stale ++ live) idx = Some x
     /\ (k_last s1 < c_upper x -> c_seq x <= k_last s1 -> c_seq x = r_pos r /\ k_last s1 = r_pos r /\ idx = length stale)
     /\ (r_gap r = false -> fst (provide r o) (r_pos r) <> None -> c_seq x = r_pos r /\ r_pos r < c_upper x) }.

Lemma settle_good auto i r o s s1 idx stale live :
  match o with RSkip _ | RTrim _ => False | _ => True end ->
  Ins auto i r o s1 idx stale live -> observed s1 = observed s ->
  good auto i r o s (settle (Some idx) s1).
Proof.
  intros NS N OB. destruct N as [NA NI NC NP NL NT NZ NK NW NST NLK NWI NN NOFF (x & NX & H1 & H2)].
  unfold settle. rewrite NK, NX.
  assert (TG : target r o = r_pos r) by (destruct o; [reflexivity|reflexivity|destruct NS|destruct NS]).
  destruct ((k_last s1 <? c_seq x) || (c_upper x <=? k_last s1)) eqn:EX.
  - (* nothing to deliver *)
    cbn [good]. destruct (r_gap r) eqn:RG.
    + exists (mkR (fst (provide r o)) (snd (provide r o)) (r_pos r) true), [], stale, live.
      split; [apply rs_hold; [assumption|destruct o; auto]|]. split; [|rewrite app_nil_r; exact OB].
      constructor; cbn [r_pos r_map r_ext r_gap]; auto. discriminate.
    + specialize (NN eq_refl).
      assert (NONE : fst (provide r o) (r_pos r) = None).
      { destruct (fst (provide r o) (r_pos r)) eqn:E; [|reflexivity]. exfalso.
        destruct H2 as (A & B); [reflexivity|discriminate|]. lia. }
      exists (mkR (fst (provide r o)) (snd (provide r o)) (r_pos r) false), [], stale, live.
      split; [apply rs_go; rewrite TG; apply adv_wait; exact NONE|]. split; [|rewrite app_nil_r; exact OB].
      constructor; cbn [r_pos r_map r_ext r_gap]; auto.
  - destruct H1 as (A & B & ->); [lia|lia|].
    assert (FS : Forall (fun c => c_seq c < k_last s1) stale) by (eapply Forall_impl; [|exact NST]; intros c (C1 & C2); lia).
    pose proof (try_deliver_spec s1 stale live NK FS ltac:(lia) ltac:(rewrite B; exact NW) ltac:(lia) NZ) as T.
    destruct (try_deliver (length stale) s1) as [u s'|e s'|]; cbn [good]; [|left; exact T|exact T].
    destruct T as (os & q & g & l1 & l2 & T1 & T2 & T3 & T4 & T5 & T6 & T7 & T8 & T9 & T10 & T11 & T12 & T13).
    assert (ADV : advance (fst (provide r o)) (r_pos r) os q g).
    { rewrite B in T1. eapply advance_ext; [|exact T1]. exact NLK. }
    assert (WI2 : Forall (within (snd (provide r o))) l2) by (rewrite T2 in NWI; apply Forall_app in NWI; tauto).
    assert (LK2 : forall p, q <= p -> look l2 p = fst (provide r o) p).
    { intros p Hp. rewrite <- NLK by lia. rewrite T2. symmetry. apply look_skip.
      eapply Forall_impl; [|exact T3]; cbn beta; intros; lia. }
    assert (STP : g = false -> fst (provide r o) q = None) by (intros ->; eapply advance_stop; [exact ADV|reflexivity]).
    destruct auto.
    + rewrite NA in *.
      exists (mkR (fst (provide r o)) (snd (provide r o)) q g), os, [], l2.
      split; [apply rs_go; rewrite TG; exact ADV|]. split; [|rewrite T10, OB; reflexivity].
      constructor; cbn [r_pos r_map r_ext r_gap app]; auto; try lia; try discriminate; try congruence.
    + rewrite NA in *. destruct (NOFF eq_refl) as (O1 & O2 & O3 & O4).
      exists (mkR (fst (provide r o)) (snd (provide r o)) q g), os, (stale ++ l1), l2.
      split; [apply rs_go; rewrite TG; exact ADV|]. split; [|rewrite T10, OB; reflexivity].
      constructor; cbn [r_pos r_map r_ext r_gap]; auto; try lia; try congruence.
      * rewrite T12, NK, T2, app_assoc. reflexivity.
      * rewrite T7. apply Forall_app. split.
        -- eapply Forall_impl; [|exact NST]. intros c (C1 & C2). split; lia.
        -- rewrite Forall_forall in *. intros c Hc. specialize (T3 c Hc). cbn beta in T3.
           assert (I : In c (k_chunks s1)) by (rewrite NK, T2; apply in_or_app; right; apply in_or_app; left; exact Hc).
           destruct (wfl_in _ _ _ O3 I) as (D1 & (D2 & D3 & _)). split; lia.
      * intros _. rewrite T13, T7, T12. repeat split; auto.
Qed.

Lemma prov_write a d r : provide r (RWrite a d) = (first_wins (r_map r) (data_cells a d), (a, a + blen d) :: r_ext r).
Proof. reflexivity. Qed.
Lemma within_mono e x c : within e c -> within (x :: e) c.
Proof. intros (a & b & I & H). exists a, b. split; [right; exact I|exact H]. Qed.

(** Adding a segment that does not reach back before the reader's position, or (with trimming off) only covers there
    what is known already, or (with trimming off) lies before it. *)
Lemma put_good auto i r o s stale live data a len :
  Inv auto i s r stale live ->
  match o with RWrite a' d => data = Some d /\ a' = a /\ len = blen d | RGap a' n => data = None /\ a' = a /\ n = len | _ => False end ->
  0 <= a -> 0 < len -> a + len < 2 ^ 64 ->
  (data = None -> r_pos r <= a /\ forall p, a <= p < a + len -> r_map r p = None) ->
  (r_pos r <= a \/ (auto = false /\ ((a + len <= r_pos r) \/ forall p, a <= p < r_pos r -> r_map r p <> None))) ->
  good auto i r o s (sbind (put data a len (a + len) s) settle).
Proof.
  intros V HO A0 LP LB HG HP. pose proof V as [VA VI VC VP VL VT VZ VK VW VS VLK VWI VN VOFF].
  assert (HD : forall d, data = Some d -> blen d = a + len - a).
  { intros d ->. destruct o as [a' d'|a' n|q|q]; [destruct HO as ([= ->] & -> & ->); lia|destruct HO; discriminate|destruct HO|destruct HO]. }
  assert (PR : forall p, fst (provide r o) p = first_wins (r_map r) (seg_cells data a (a + len)) p).
  { intros p. destruct o as [a' d'|a' n|q|q]; cbn [provide fst seg_cells].
    - destruct HO as (-> & -> & ->). reflexivity.
    - destruct HO as (-> & -> & ->). cbn [seg_cells]. replace (a + len - a) with len by lia. reflexivity.
    - destruct HO.
    - destruct HO. }
  assert (PE : snd (provide r o) = (a, a + len) :: r_ext r).
  { destruct o as [a' d'|a' n|q|q]; cbn [provide snd]; [destruct HO as (_ & -> & ->)|destruct HO as (_ & -> & ->)|destruct HO|destruct HO]; reflexivity. }
  assert (NS : match o with RSkip _ | RTrim _ => False | _ => True end) by (destruct o; auto; destruct HO).
  destruct auto eqn:AU.
  - (* automatic trimming: the segment starts at or after the position *)
    assert (PA : r_pos r <= a) by (destruct HP as [? | (? & _)]; [assumption|discriminate]).
    destruct (put_spec s stale live data a len (a + len) (r_pos r)) as (j & post' & evs & E & SI & WF & LK & FA & (x & NX & HX)); auto; try lia.
    { eapply Forall_impl; [|exact VS]. intros c (C1 & C2). lia. }
    { intros ND p Hp. rewrite VLK by lia. apply HG; [exact ND|exact Hp]. }
    rewrite E. cbn [sbind]. apply (settle_good true i r o s _ _ stale post' NS); [|apply observed_silent; exact SI].
    assert (SX : c_seq x >= r_pos r /\ c_seq x < c_upper x).
    { destruct (wfl_in _ _ x WF (nth_error_In _ _ NX)) as (D1 & (D2 & D3 & _)). lia. }
    constructor; cbn [k_auto k_init k_cur k_last k_trim k_chunks log set_chunks]; auto; try discriminate.
    + apply size_silent; assumption.
    + intros p Hp. rewrite LK, PR. unfold first_wins. rewrite VLK by exact Hp. reflexivity.
    + rewrite PE. rewrite Forall_forall in *. intros c Hc. destruct (FA c Hc) as [I | (I1 & I2 & _)].
      * apply within_mono. auto.
      * exists a, (a + len). split; [left; reflexivity|lia].
    + intros G. apply VN, G.
    + exists x. split; [rewrite nth_error_app2 by lia; replace (length stale + j - length stale)%nat with j by lia; exact NX|].
      split.
      * intros U1 U2. split; [lia|]. split; [lia|].
        assert (j = 0%nat); [|lia]. destruct j as [|j]; [reflexivity|]. exfalso.
        destruct post' as [|c0 post']; [discriminate|]. cbn [nth_error wfl] in *. destruct WF as (W1 & (W2 & W3 & _) & W4).
        destruct (wfl_in _ _ x W4 (nth_error_In _ _ NX)) as (D1 & _). lia.
      * intros G NN. destruct (VN G) as (N1 & N2). rewrite PR in NN. unfold first_wins in NN. rewrite N2 in NN.
        destruct (Z_le_gt_dec a (r_pos r)) as [LE|GT]; [|exfalso; apply NN; apply seg_out; [exact HD|lia]].
        assert (a = r_pos r) by lia.
        assert (LN : look live (r_pos r) = None) by (rewrite VLK by lia; exact N2).
        destruct HX as [(X1 & X2 & X3 & X4) | (X1 & X2)].
        -- split; [|lia]. destruct (Z.eq_dec (c_seq x) (r_pos r)); [assumption|]. exfalso. apply (X4 (r_pos r)); [lia|exact LN].
        -- exfalso. apply (X2 (r_pos r)); [lia|exact LN].
  - (* trimming off *)
    destruct (VOFF eq_refl) as (O1 & O2 & O3 & O4).
    destruct (put_spec s [] (k_chunks s) data a len (a + len) 0) as (j & post' & evs & E & SI & WF & LK & FA & (x & NX & HX)); auto; try lia.
    { intros ND p Hp. rewrite O4 by lia. apply HG; [exact ND|exact Hp]. }
    cbn [length plus app] in E. rewrite E. cbn [sbind].
    assert (NSTR : Forall (fun c => ~ (c_seq c < r_pos r < c_upper c)) post').
    { rewrite Forall_forall in *. intros c Hc. destruct (FA c Hc) as [I | (I1 & I2 & I3)].
      - rewrite VK in I. apply in_app_or in I. destruct I as [I|I].
        + destruct (VS c I) as (C1 & C2). lia.
        + destruct (wfl_in _ _ c VW I). lia.
      - intros (X1 & X2). destruct (wfl_in _ _ c WF Hc) as (_ & (D0 & _)). rewrite O4 in I3 by lia.
        destruct HP as [HP | (_ & [HP|HP])]; [lia|lia|]. apply (HP (c_seq c)); [lia|exact I3]. }
    destruct (split_at (r_pos r) post' 0 WF NSTR) as (l1 & l2 & SP & F1 & W2 & _).
    apply (settle_good false i r o s _ _ l1 l2 NS); [|apply observed_silent; exact SI].
    assert (SX : 0 <= c_seq x /\ c_seq x < c_upper x /\ ~ (c_seq x < r_pos r < c_upper x)).
    { destruct (wfl_in _ _ x WF (nth_error_In _ _ NX)) as (D1 & (D2 & D3 & _)). split; [lia|]. split; [lia|].
      rewrite Forall_forall in NSTR. apply NSTR. eapply nth_error_In; exact NX. }
    assert (LKA : forall p, 0 <= p -> look post' p = fst (provide r o) p).
    { intros p Hp. rewrite LK, PR. unfold first_wins. rewrite O4 by exact Hp. reflexivity. }
    constructor; cbn [k_auto k_init k_cur k_last k_trim k_chunks log set_chunks]; auto.
    + apply size_silent; assumption.
    + rewrite O2. eapply Forall_impl; [|exact F1]. intros c (C1 & C2). split; lia.
    + intros p Hp. rewrite <- LKA by lia. rewrite SP. symmetry. apply look_skip.
      eapply Forall_impl; [|exact F1]; cbn beta; intros; lia.
    + rewrite PE. rewrite Forall_forall in *. intros c Hc.
      assert (I : In c post') by (rewrite SP; apply in_or_app; right; exact Hc).
      destruct (FA c I) as [J | (J1 & J2 & _)].
      * rewrite VK in J. apply in_app_or in J. destruct J as [J|J].
        -- exfalso. destruct (VS c J) as (C1 & C2). destruct (wfl_in _ _ c W2 Hc). lia.
        -- apply within_mono. auto.
      * exists a, (a + len). split; [left; reflexivity|lia].
    + exists x. split; [rewrite <- SP; exact NX|]. split.
      * intros U1 U2. assert (c_seq x = r_pos r) by lia. split; [assumption|]. split; [assumption|].
        (* the first chunk at or after the position *)
        rewrite SP in NX.
        destruct (Nat.lt_ge_cases j (length l1)) as [LT|GE].
        -- exfalso. rewrite nth_error_app1 in NX by exact LT. apply nth_error_In in NX. rewrite Forall_forall in F1.
           specialize (F1 x NX). cbn beta in F1. lia.
        -- rewrite nth_error_app2 in NX by exact GE. destruct (j - length l1)%nat as [|k] eqn:EJ; [lia|]. exfalso.
           destruct l2 as [|c0 l2]; [discriminate|]. cbn [nth_error wfl] in *. destruct W2 as (W1 & (W3 & W4 & _) & W5).
           destruct (wfl_in _ _ x W5 (nth_error_In _ _ NX)) as (D1 & _). lia.
      * intros G NN. destruct (VN G) as (N1 & N2). rewrite PR in NN. unfold first_wins in NN. rewrite N2 in NN.
        destruct (Z_le_gt_dec a (r_pos r)) as [LE|GT]; [|exfalso; apply NN; apply seg_out; [exact HD|lia]].
        destruct (Z_lt_ge_dec (r_pos r) (a + len)) as [LT|GE]; [|exfalso; apply NN; apply seg_out; [exact HD|lia]].
        assert (LN : look (k_chunks s) (r_pos r) = None) by (rewrite O4 by lia; exact N2).
        assert (KN : forall p, a <= p < r_pos r -> look (k_chunks s) p <> None).
        { intros p Hp. rewrite O4 by lia. destruct HP as [HP | (_ & [HP|HP])]; [lia|lia|apply HP; exact Hp]. }
        destruct HX as [(X1 & X2 & X3 & X4) | (X1 & X2)].
        -- destruct (Z.lt_trichotomy (c_seq x) (r_pos r)) as [Y|[Y|Y]].
           ++ exfalso. apply (KN (c_seq x)); [lia|exact X1].
           ++ split; lia.
           ++ exfalso. apply (X4 (r_pos r)); [lia|exact LN].
        -- exfalso. apply (X2 (r_pos r)); [lia|exact LN].
Qed.
