(** What any operation does to the connected units, the log and the size, without any assumption on the state. *)
From Verif Require Import Base BytesModel SinkModel SinkSpec SinkProofs SinkProofs2 SinkProofs3 SinkProofs4 SinkProofs5.
Open Scope Z_scope.

Lemma pieces_app a b : pieces (a ++ b) = pieces a ++ pieces b.
Proof. apply flat_map_app. Qed.
Lemma concat_pieces l : concat (pieces l) = delivered l.
Proof.
  induction l as [|e l IH]; [reflexivity|]. destruct e; cbn [pieces delivered flat_map payload app concat] in *; [f_equal|..]; exact IH.
Qed.
Lemma blen_cat a b : blen (a ++ b) = blen a + blen b.
Proof. unfold blen. rewrite app_length. lia. Qed.
Lemma delivered_app a b : delivered (a ++ b) = delivered a ++ delivered b.
Proof. apply flat_map_app. Qed.

(** Pieces are passed on one after the other, each only while no unit has completed. *)
Inductive passed : list bytes -> list sunit -> list sunit -> Prop :=
| pa_nil us : passed [] us us
| pa_cons d ds us us' : any_completed us = false -> passed ds (map (feed d) us) us' -> passed (d :: ds) us us'.
Lemma passed_app a b us vs ws : passed a us vs -> passed b vs ws -> passed (a ++ b) us ws.
Proof. induction 1; intros; [assumption|]. cbn [app]. constructor; auto. Qed.

Record eff (exact : bool) (s s' : sink) (evs : list event) : Prop := mkEff {
  e_log : k_log s' = k_log s ++ evs;
  e_units : passed (pieces evs) (k_units s) (k_units s');
  e_closed : k_closed s' = k_closed s;
  e_init : k_init s' = k_init s;
  e_auto : k_auto s' = k_auto s;
  e_size : exists n, u64 (k_size s') = u64 (k_size s + n) /\ blen (delivered evs) <= n /\ (exact = true -> n = blen (delivered evs)) }.

Lemma eff_trans x s s1 s2 a b : eff true s s1 a -> eff x s1 s2 b -> eff x s s2 (a ++ b).
Proof.
  intros [A1 A2 A3 A4 A5 (n & A6 & A7 & A8)] [B1 B2 B3 B4 B5 (m & B6 & B7 & B8)]. constructor; try congruence.
  - rewrite B1, A1, app_assoc. reflexivity.
  - rewrite pieces_app. eapply passed_app; eauto.
  - exists (n + m). rewrite delivered_app, blen_cat.
    split; [|split; [lia|intros E; rewrite A8, B8 by auto; reflexivity]].
    rewrite B6. unfold u64 in *. rewrite <- Z.add_mod_idemp_l, A6, Z.add_mod_idemp_l by lia. f_equal. lia.
Qed.
Lemma eff_silent x s s' evs : k_log s' = k_log s ++ evs -> pieces evs = [] -> k_units s' = k_units s -> k_closed s' = k_closed s ->
  k_init s' = k_init s -> k_auto s' = k_auto s -> k_size s' = k_size s -> eff x s s' evs.
Proof.
  intros. constructor; auto.
  - rewrite H0, H1. constructor.
  - exists 0. rewrite <- concat_pieces, H0. cbn [concat]. change (blen []) with 0. rewrite Z.add_0_r, H5. repeat split; auto; lia.
Qed.
Lemma eff_weaken x s s' evs : eff true s s' evs -> eff x s s' evs.
Proof. intros [A1 A2 A3 A4 A5 (n & A6 & A7 & A8)]. constructor; auto. exists n. repeat split; auto. Qed.
Lemma eff_refl x s : eff x s s [].
Proof. apply eff_silent; auto. rewrite app_nil_r. reflexivity. Qed.
Lemma silent_pieces evs : Forall silent evs -> pieces evs = [].
Proof. induction 1 as [|e l H F IH]; [reflexivity|]. destruct e; cbn [silent] in H; try contradiction; exact IH. Qed.

(** The outcome of an operation: what happened is described by [eff] whether it returns or throws. *)
Definition effr {A} (s : sink) (x : sres A) : Prop :=
  match x with SOk _ s' => exists evs, eff true s s' evs | SThrow _ s' => exists evs, eff false s s' evs | SCrash => True end.
Lemma effr_bind {A B} s (x : sres A) (f : A -> sink -> sres B) :
  effr s x -> (forall a s', x = SOk a s' -> effr s' (f a s')) -> effr s (sbind x f).
Proof.
  destruct x as [a s'|e s'|]; cbn [effr sbind]; auto. intros (evs & E) H. specialize (H a s' eq_refl).
  destruct (f a s') as [b s2|e s2|]; cbn [effr] in *; auto; destruct H as (evs2 & E2); eexists; eapply eff_trans; eauto.
Qed.
Lemma effr_call {A B} (r : res A) s0 s (f : A -> sres B) :
  eff true s0 s [] \/ (exists evs, eff true s0 s evs) -> (forall a, r = Ok a -> effr s0 (f a)) -> effr s0 (scall r s f).
Proof.
  intros E H. destruct r as [a|e|]; cbn [scall]; [apply H; reflexivity| |exact Logic.I].
  cbn [effr]. destruct E as [E | (evs & E)]; eexists; apply eff_weaken; exact E.
Qed.
Lemma effr_pre {A} s s1 (x : sres A) evs : eff true s s1 evs -> effr s1 x -> effr s x.
Proof. intros E. destruct x; cbn [effr]; auto; intros (b & F); eexists; eapply eff_trans; eauto. Qed.
Lemma effr_chunks {A} s x (y : sres A) : effr (set_chunks s x) y -> effr s y.
Proof. apply effr_pre with (evs := []). apply eff_silent; auto. cbn. rewrite app_nil_r. reflexivity. Qed.
Lemma eff_chunks x s l : eff x s (set_chunks s l) [].
Proof. apply eff_silent; auto. cbn. rewrite app_nil_r. reflexivity. Qed.

Lemma add_eff n : forall data rseq rupper c s, effr s (add_and_check n data rseq rupper c s).
Proof.
  induction n as [|n IH]; intros data rseq rupper c s; [exact Logic.I|].
  cbn [add_and_check]. destruct (rev (k_chunks s)) as [|back bs]; [exact Logic.I|].
  set (app := SOk (Some (length (k_chunks s))) (set_chunks s (k_chunks s ++ [mkChunk data rseq rupper]))).
  assert (EA : effr s app) by (exists []; apply eff_chunks).
  destruct (rseq =? c_upper back); [exact EA|].
  set (c1 := (c + count_before rseq (skipn c (k_chunks s)))%nat).
  destruct (nth_error (k_chunks s) c1) as [x|]; [|exact EA].
  destruct (rupper <=? c_seq x); [exists []; apply eff_chunks|].
  apply effr_bind.
  - destruct (rseq <? c_seq x); [|exists []; apply eff_refl].
    destruct data as [d|]; [|exists []; apply eff_refl].
    apply effr_call; [left; apply eff_refl|]. intros p _. cbv zeta.
    apply effr_call; [left; apply eff_chunks|]. intros d' _. exists []. apply eff_chunks.
  - intros [[[new_c c2] data2] rseq2] s2 _. cbv zeta.
    apply effr_call; [left; apply eff_refl|]. intros o _.
    apply effr_call; [left; apply eff_refl|]. intros nw _.
    set (s3 := log s2 _).
    assert (E3 : eff true s2 s3 [EvOverlap (aseq s2 rseq2) o nw]) by (apply eff_silent; auto).
    eapply effr_pre; [exact E3|].
    destruct data2 as [d|]; [|exists []; apply eff_refl].
    destruct (_ <? _); [|exists []; apply eff_refl].
    apply effr_call; [left; apply eff_refl|]. intros d' _.
    apply effr_bind; [apply IH|]. intros r s4 _.
    destruct new_c as [i|]; [|exists []; apply eff_refl]. destruct (Nat.eqb i c2); exists []; apply eff_refl.
Qed.

Lemma deliver_eff data rseq rupper s : effr s (deliver data rseq rupper s).
Proof.
  unfold deliver. destruct data as [[|b d]|].
  - exists []. apply eff_refl.
  - cbv zeta. set (dd := b :: d). set (s1 := set_size s (u64 (k_size s + blen dd))).
    assert (BP : 0 <= blen dd) by (unfold blen; lia).
    destruct (any_completed (k_units s1)) eqn:AC.
    + exists []. constructor; cbn; auto; [rewrite app_nil_r; reflexivity|constructor|].
      exists (blen dd). split; [unfold u64; apply Z.mod_mod; lia|]. split; [exact BP|discriminate].
    + exists [EvData (aseq s1 rseq) dd]. constructor; cbn [set_last set_cur log set_units set_size k_log k_units k_closed k_init k_auto k_size s1]; auto.
      * constructor; [exact AC|constructor].
      * exists (blen dd). split; [unfold u64; apply Z.mod_mod; lia|]. cbn [delivered flat_map payload]. rewrite app_nil_r. split; [lia|reflexivity].
  - destruct (k_cur s =? rupper); [exists []; apply eff_refl|]. eexists. apply eff_silent; cbn; reflexivity.
Qed.
Lemma trim_eff x rseq s : exists evs, eff x s (do_trim rseq s) evs.
Proof. eexists. apply eff_silent; [reflexivity|apply silent_pieces, trim_silent|reflexivity..]. Qed.
Lemma trim_effr rseq s : effr s (SOk tt (do_trim rseq s)).
Proof. apply (trim_eff true). Qed.
Lemma loop_eff l : forall s, effr s (deliver_loop l s).
Proof.
  induction l as [|c l IH]; intros s; cbn [deliver_loop]; [exists []; apply eff_refl|].
  destruct (c_seq c =? k_last s); [|apply IH]. cbv zeta.
  set (s1 := set_last s _).
  eapply effr_pre; [apply (eff_silent true s s1 []); auto; cbn; rewrite app_nil_r; reflexivity|].
  apply effr_bind; [apply deliver_eff|]. intros ok s2 _. destruct ok; [apply IH|].
  destruct (k_auto s2); [apply trim_effr|exists []; apply eff_refl].
Qed.
Lemma try_eff c s : effr s (try_deliver c s).
Proof.
  unfold try_deliver. apply effr_bind; [apply loop_eff|]. intros u s1 _.
  destruct (k_auto s1); [apply trim_effr|exists []; apply eff_refl].
Qed.
Lemma new_data_eff data rseq len s : effr s (new_data data rseq len s).
Proof.
  unfold new_data. destruct (len =? 0); [exists []; apply eff_refl|].
  destruct (_ && _).
  { apply effr_bind; [apply deliver_eff|]. intros b s1 _. exists []. apply eff_refl. }
  cbv zeta. destruct (_ <=? _); [exists []; apply eff_refl|].
  apply effr_call; [left; apply eff_refl|]. intros [data2 rseq2] _.
  apply effr_bind.
  - destruct (k_chunks s) eqn:K; [exists []; apply eff_chunks|apply add_eff].
  - intros ic s1 _. destruct ic as [c|]; [|exact Logic.I]. destruct (nth_error (k_chunks s1) c) as [x|]; [|exact Logic.I].
    destruct (_ || _); [exists []; apply eff_refl|apply try_eff].
Qed.
Lemma undelivered_silent a f l : pieces (undelivered_up_to a f l) = [].
Proof.
  induction l as [|c l IH]; cbn [undelivered_up_to]; [reflexivity|]. destruct (a <=? c_seq c); [reflexivity|].
  destruct (c_data c); [|exact IH]. cbn [pieces flat_map app]. exact IH.
Qed.
Lemma skip_eff rseq s : effr s (do_skip rseq s).
Proof.
  unfold do_skip. cbv zeta.
  set (s1 := if k_auto s then do_trim rseq s else log s (undelivered_up_to rseq (aseq s) (k_chunks s))).
  assert (E : exists evs, eff true s s1 evs).
  { unfold s1. destruct (k_auto s); [apply trim_eff|]. eexists. apply eff_silent; [reflexivity|apply undelivered_silent|reflexivity..]. }
  destruct E as (evs & E). eapply effr_pre; [exact E|].
  set (s2 := set_last (set_cur s1 rseq) rseq).
  eapply effr_pre; [|apply try_eff].
  apply eff_silent; reflexivity.
Qed.

Lemma step_eff o s : data_op o = true -> effr s (sstep o s).
Proof.
  destruct o as [beh|d q n|q n|q|q|b|q|]; cbn [data_op sstep]; try discriminate; intros _.
  - destruct d; [exists []; apply eff_refl|]. apply new_data_eff.
  - apply new_data_eff.
  - apply skip_eff.
  - apply trim_effr.
Qed.

Lemma grow_refl u : grow u u.
Proof. split; [reflexivity|]. split; [exists []; rewrite app_nil_r; reflexivity|auto]. Qed.
Lemma grow_trans u v w : grow u v -> grow v w -> grow u w.
Proof.
  intros (A1 & (m & A2) & A3) (B1 & (n & B2) & B3). split; [congruence|]. split.
  - exists (m ++ n). rewrite B2, A2, app_assoc. reflexivity.
  - intros H. rewrite (A3 H) in *. auto.
Qed.
Lemma grow_list_refl us : Forall2 grow us us.
Proof. induction us; constructor; auto using grow_refl. Qed.
Lemma grow_list_trans us : forall vs ws, Forall2 grow us vs -> Forall2 grow vs ws -> Forall2 grow us ws.
Proof.
  induction us as [|u us IH]; intros vs ws A B; inversion A; subst; inversion B; subst; constructor; eauto using grow_trans.
Qed.
Lemma feed_grow d us : any_completed us = false -> Forall2 grow us (map (feed d) us).
Proof.
  induction us as [|u us IH]; cbn [any_completed existsb map]; intros H; constructor.
  - apply orb_false_iff in H. destruct H as (H & _). unfold feed. destruct (u_skip u) eqn:SK; [apply grow_refl|].
    cbn [negb andb] in H.
    destruct (u_beh u (u_in u ++ [d])); (split; [reflexivity|split; [exists [d]; reflexivity|intros [X | X]; congruence]]).
  - apply orb_false_iff in H. apply IH, H.
Qed.
Lemma passed_grow ds us us' : passed ds us us' -> Forall2 grow us us'.
Proof. induction 1; [apply grow_list_refl|]. eapply grow_list_trans; [eapply feed_grow; eassumption|eassumption]. Qed.

Lemma given_nil us : Forall2 (given []) us us.
Proof.
  induction us as [|u us IH]; constructor; [|exact IH]. split; [intros _; rewrite app_nil_r; reflexivity|].
  split; [|auto]. exists [], []. split; [reflexivity|]. rewrite app_nil_r. reflexivity.
Qed.
Lemma passed_given ds us us' : passed ds us us' -> Forall2 (given ds) us us'.
Proof.
  induction 1 as [us|d ds us us' AC P IH]; [apply given_nil|].
  clear AC P. revert us' IH. induction us as [|u us IHu]; intros us' H; inversion H as [|? v ? vs G F]; subst; constructor; [|apply IHu, F].
  destruct G as (G1 & (some & rest & G2 & G3) & G4). unfold feed in G1, G3, G4. unfold given. destruct (u_skip u) eqn:SK.
  - specialize (G4 SK). subst v. split; [congruence|]. split; [|auto]. exists [], (d :: ds). split; [reflexivity|]. rewrite app_nil_r. reflexivity.
  - destruct (u_beh u (u_in u ++ [d])) eqn:B; cbn [u_skip u_in] in G1, G3, G4.
    + split; [intros K; rewrite (G1 K), <- app_assoc; reflexivity|]. split; [|discriminate].
      exists (d :: some), rest. rewrite G3, <- app_assoc, G2. auto.
    + split; [intros K; rewrite (G1 K), <- app_assoc; reflexivity|]. split; [|discriminate].
      exists (d :: some), rest. rewrite G3, <- app_assoc, G2. auto.
    + rewrite (G4 eq_refl). cbn [u_skip u_in]. split; [discriminate|]. split; [|discriminate]. exists [d], ds. auto.
Qed.

(** ** Histories *)
Lemma later_refl s : later s s.
Proof.
  split; [exists []; rewrite app_nil_r; reflexivity|]. split; [exists []; rewrite app_nil_r; reflexivity|].
  exists (all_units s), []. rewrite app_nil_r. split; [reflexivity|apply grow_list_refl].
Qed.
Lemma later_trans s s1 s2 : later s s1 -> later s1 s2 -> later s s2.
Proof.
  intros ((e1 & A1) & (m1 & A2) & n1 & w1 & A3 & A4) ((e2 & B1) & (m2 & B2) & n2 & w2 & B3 & B4).
  split; [exists (e1 ++ e2); rewrite B1, A1, app_assoc; reflexivity|].
  split; [exists (m1 ++ m2); rewrite B2, A2, app_assoc; reflexivity|].
  rewrite A3 in B4. apply Forall2_app_inv_l in B4. destruct B4 as (x & y & B5 & B6 & ->).
  exists x, (y ++ w2). rewrite B3, app_assoc. split; [reflexivity|]. eapply grow_list_trans; eauto.
Qed.
Lemma eff_later x s s' evs : eff x s s' evs -> later s s'.
Proof.
  intros [A1 A2 A3 A4 A5 _]. split; [eauto|]. split; [exists []; rewrite app_nil_r; exact A3|].
  exists (all_units s'), []. rewrite app_nil_r. split; [reflexivity|]. unfold all_units. rewrite A3.
  apply Forall2_app; [apply grow_list_refl|eapply passed_grow; eauto].
Qed.
Lemma close_later s : later s (do_close s).
Proof.
  split; [exists []; cbn; rewrite app_nil_r; reflexivity|]. split; [exists (k_units s); reflexivity|].
  exists (all_units s), []. unfold all_units. cbn [do_close k_closed k_units]. rewrite app_nil_r. split; [reflexivity|apply grow_list_refl].
Qed.
Lemma connect_later s u : later s (set_units s (k_units s ++ [u])).
Proof.
  split; [exists []; cbn; rewrite app_nil_r; reflexivity|]. split; [exists []; cbn; rewrite app_nil_r; reflexivity|].
  exists (all_units s), [u]. unfold all_units. cbn [set_units k_closed k_units]. rewrite app_assoc. split; [reflexivity|apply grow_list_refl].
Qed.
Lemma step_later o s : match sstep o s with SOk _ s' | SThrow _ s' => later s s' | SCrash => True end.
Proof.
  destruct (data_op o) eqn:D.
  - pose proof (step_eff o s D) as E. destruct (sstep o s) as [u s'|e s'|]; cbn [effr] in E; auto;
      destruct E as (evs & E); eapply eff_later; eauto.
  - destruct o as [beh|d q n|q n|q|q|b|q|]; cbn [data_op] in D; try discriminate; cbn [sstep].
    + unfold do_connect. destruct (beh []); [apply connect_later|apply connect_later|apply later_refl].
    + eapply later_trans; [|apply later_refl]. split; [exists []; cbn; rewrite app_nil_r; reflexivity|].
      split; [exists []; cbn; rewrite app_nil_r; reflexivity|]. exists (all_units s), []. rewrite app_nil_r. split; [reflexivity|apply grow_list_refl].
    + destruct (_ || _); [apply close_later|]. split; [exists []; cbn; rewrite app_nil_r; reflexivity|].
      split; [exists []; cbn; rewrite app_nil_r; reflexivity|]. exists (all_units s), []. rewrite app_nil_r. split; [reflexivity|apply grow_list_refl].
    + apply close_later.
Qed.
Lemma run_later ops : forall s, match srun ops s with SOk _ s' | SThrow _ s' => later s s' | SCrash => True end.
Proof.
  induction ops as [|o ops IH]; intros s; cbn [srun]; [apply later_refl|].
  pose proof (step_later o s) as H. destruct (sstep o s) as [u s1|e s1|]; auto; specialize (IH s1);
    destruct (srun ops s1) as [u2 s2|e2 s2|]; auto; eapply later_trans; eauto.
Qed.
