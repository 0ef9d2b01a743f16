From Verif Require Import Base FiberModel FilterModel FilterSpec.

Section P.
Context {S : Type}.
Variable beh : nat -> S -> bytes -> bool -> list fact * verdict S.
Notation flt := (onefilter S).
Notation run_filter := (run_filter beh).
Notation flush := (flush beh).

Definition static (f : flt) := (f_unit f, f_input f, f_src f, f_off f).

Lemma fup_same {A} (m : nat -> A) k a : fup m k a k = a.
Proof. unfold fup. rewrite Nat.eqb_refl. reflexivity. Qed.
Lemma fup_other {A} (m : nat -> A) k a j : j <> k -> fup m k a j = m j.
Proof. intros H. unfold fup. apply Nat.eqb_neq in H. rewrite H. reflexivity. Qed.

Lemma s_append_ok s bs s' : s_append s bs = Ok s' -> s_data s' = s_data s ++ bs /\ s_frozen s' = s_frozen s.
Proof.
  unfold s_append. destruct bs; [intros H; injection H; intros; subst; rewrite app_nil_r; auto|].
  destruct (s_frozen s) eqn:F; [discriminate|]. intros H; injection H; intros; subst. cbn. auto.
Qed.

Definition eff (m m' : mem) (i : nat) (d : bytes) (z : bool) : Prop :=
  m_fwd m' = m_fwd m /\ m_next m' = m_next m /\ (forall j, j <> i -> m_str m' j = m_str m j) /\
  s_data (m_str m' i) = s_data (m_str m i) ++ d /\ s_frozen (m_str m' i) = s_frozen (m_str m i) || z.

Lemma eff_refl m i : eff m m i [] false.
Proof. repeat split; auto. - rewrite app_nil_r; auto. - rewrite orb_false_r; auto. Qed.
Lemma eff_trans m m1 m2 i d1 z1 d2 z2 : eff m m1 i d1 z1 -> eff m1 m2 i d2 z2 -> eff m m2 i (d1 ++ d2) (z1 || z2).
Proof.
  intros (a1 & a2 & a3 & a4 & a5) (b1 & b2 & b3 & b4 & b5).
  split; [congruence|]. split; [congruence|]. split; [intros; rewrite b3, a3; auto|]. split.
  - rewrite b4, a4, app_assoc. reflexivity.
  - rewrite b5, a5, orb_assoc. reflexivity.
Qed.

Lemma forward_eff m u i bs m' : m_fwd m u = Some i -> forward m u bs = Ok m' -> eff m m' i bs false.
Proof.
  intros F H. unfold forward in H. rewrite F in H. destruct (s_append (m_str m i) bs) as [s| |] eqn:E; try discriminate.
  cbn in H. injection H; intros; subst. apply s_append_ok in E. destruct E as [E1 E2].
  unfold eff, set_str. cbn. rewrite fup_same, orb_false_r. repeat split; auto. intros. apply fup_other; auto.
Qed.
Lemma forward_eod_eff m u i : m_fwd m u = Some i -> eff m (forward_eod m u) i [] true.
Proof.
  intros F. unfold forward_eod. rewrite F. unfold eff, set_str. cbn. rewrite fup_same, app_nil_r, orb_true_r. cbn.
  repeat split; auto. intros. apply fup_other; auto.
Qed.

Lemma do_facts_eff u i fs : forall m m', m_fwd m u = Some i -> do_facts m u fs = (m', None) -> eff m m' i (fact_data fs) (fact_eod fs).
Proof.
  induction fs as [|[bs|] fs IH]; intros m m' F H; cbn [do_facts] in H.
  - injection H; intros; subst. apply eff_refl.
  - destruct (forward m u bs) as [m1| |] eqn:E; try discriminate. pose proof (forward_eff _ _ _ _ _ F E) as G.
    destruct (IH m1 m') as (a1 & a2 & a3 & a4 & a5); auto. { destruct G as (g1 & _). rewrite g1. exact F. }
    change (fact_data (FData bs :: fs)) with (bs ++ fact_data fs).
    change (fact_eod (FData bs :: fs)) with (false || fact_eod fs).
    eapply eff_trans; [exact G|]. unfold eff; auto.
  - pose proof (forward_eod_eff _ _ _ F) as G.
    assert (IH' := IH (forward_eod m u) m'). destruct IH' as (a1 & a2 & a3 & a4 & a5); auto. { destruct G as (g1 & _). rewrite g1. exact F. }
    change (fact_data (FEod :: fs)) with ([] ++ fact_data fs).
    change (fact_eod (FEod :: fs)) with (true || fact_eod fs). eapply eff_trans; [exact G|]. unfold eff; auto.
Qed.

Record ran (m : mem) (f : flt) (s : S) (m1 : mem) (f1 : flt) (e : event) (facts : list fact) (en : bool) : Prop := {
  rn_ev : e = ERun (f_unit f) (skipn (f_off f) (s_data (m_str m (f_src f)))) (s_frozen (m_str m (f_src f))) facts en;
  rn_static : static f1 = static f;
  rn_eff : forall i, m_fwd m (f_unit f) = Some i -> eff m m1 i (fact_data facts) (fact_eod facts || en);
  rn_res : if en
           then f_res f1 = Ended /\ beh (f_unit f) s (skipn (f_off f) (s_data (m_str m (f_src f)))) (s_frozen (m_str m (f_src f))) = (facts, VFinish)
           else exists s', f_res f1 = Suspended s' /\
                beh (f_unit f) s (skipn (f_off f) (s_data (m_str m (f_src f)))) (s_frozen (m_str m (f_src f))) = (facts, VYield s') }.

Lemma run_ran m f s m1 f1 e : run_filter m f s = Ok (m1, f1, e) -> exists facts en, ran m f s m1 f1 e facts en.
Proof.
  unfold FilterModel.run_filter. intros H.
  destruct (beh (f_unit f) s (skipn (f_off f) (s_data (m_str m (f_src f)))) (s_frozen (m_str m (f_src f)))) as [facts v] eqn:B.
  destruct (do_facts m (f_unit f) facts) as [m' [ex|]] eqn:D; [discriminate|].
  destruct v as [s'| |ex]; try discriminate; injection H; intros; subst; eexists; eexists; (split; [reflexivity|reflexivity| |]).
  - intros i F. cbn in F. rewrite orb_false_r. eapply do_facts_eff; eauto.
  - cbn. exists s'. auto.
  - intros i F. cbn in F. pose proof (do_facts_eff _ _ _ _ _ F D) as G.
    rewrite <- (app_nil_r (fact_data facts)). eapply eff_trans; [exact G|]. apply forward_eod_eff.
    destruct G as (g & _). rewrite g. exact F.
  - cbn. auto.
Qed.

Fixpoint chained (src off : nat) (fs : list flt) : Prop :=
  match fs with [] => True | f :: r => f_src f = src /\ f_off f = off /\ chained (f_input f) 0 r end.
Definition wired (m : mem) (src : nat) (fs : list flt) : Prop :=
  NoDup (src :: map f_input fs) /\ NoDup (map f_unit fs) /\ Forall (fun f => m_fwd m (f_unit f) = Some (f_input f)) fs.

Lemma static_fields (f g : flt) : static f = static g -> f_unit f = f_unit g /\ f_input f = f_input g /\ f_src f = f_src g /\ f_off f = f_off g.
Proof. unfold static. intros H. injection H; auto. Qed.
Lemma chained_static fs : forall fs' src off, map static fs' = map static fs -> chained src off fs -> chained src off fs'.
Proof.
  induction fs as [|f fs IH]; destruct fs' as [|f' fs']; cbn [map]; intros src off H C; try discriminate; [exact C|].
  assert (H1 : static f' = static f) by congruence. assert (H2 : map static fs' = map static fs) by congruence.
  apply static_fields in H1. destruct H1 as (a & b & c & d). cbn in *. rewrite c, d, b. destruct C as (C1 & C2 & C3). auto.
Qed.
Lemma map_static_unit fs fs' : map static fs' = map static fs -> map f_unit fs' = map f_unit fs /\ map f_input fs' = map f_input fs.
Proof.
  revert fs'. induction fs as [|f fs IH]; destruct fs' as [|f' fs']; cbn [map]; intros H; try discriminate; [auto|].
  assert (H1 : static f' = static f) by congruence. assert (H2 : map static fs' = map static fs) by congruence.
  apply static_fields in H1. destruct H1 as (a & b & _). destruct (IH _ H2). split; congruence.
Qed.
Lemma fwd_static (m : mem) fs : forall fs', map static fs' = map static fs ->
  Forall (fun f => m_fwd m (f_unit f) = Some (f_input f)) fs -> Forall (fun f => m_fwd m (f_unit f) = Some (f_input f)) fs'.
Proof.
  induction fs as [|f fs IH]; destruct fs' as [|f' fs']; cbn [map]; intros H F; try discriminate; [constructor|].
  assert (H1 : static f' = static f) by congruence. assert (H2 : map static fs' = map static fs) by congruence.
  apply static_fields in H1. destruct H1 as (a & b & _). inversion F; subst. constructor; [rewrite a, b; auto|auto].
Qed.
Lemma wired_static m m' src fs fs' : map static fs' = map static fs -> m_fwd m' = m_fwd m -> wired m src fs -> wired m' src fs'.
Proof.
  intros H E (W1 & W2 & W3). destruct (map_static_unit _ _ H) as [Hu Hi]. split; [rewrite Hi; auto|]. split; [rewrite Hu; auto|].
  rewrite E. eapply fwd_static; eauto.
Qed.

Lemma sent_app a b u : sent (a ++ b) u = sent a u ++ sent b u.
Proof. apply flat_map_app. Qed.
Lemma sent_eod_app a b u : sent_eod (a ++ b) u = sent_eod a u || sent_eod b u.
Proof. apply existsb_app. Qed.
Lemma arrived_app a b : arrived (a ++ b) = arrived a ++ arrived b.
Proof. apply flat_map_app. Qed.
Lemma arrived_eod_app a b : arrived_eod (a ++ b) = arrived_eod a || arrived_eod b.
Proof. apply existsb_app. Qed.

Definition runs (es : list event) (us : list nat) : Prop :=
  Forall2 (fun e u => exists seen eod facts en, e = ERun u seen eod facts en) es us.

Lemma runs_in es us u : runs es us -> ~ In u us -> sent es u = [] /\ sent_eod es u = false.
Proof.
  induction 1 as [|e v es us (seen & eod & facts & en & ->) H IH]; intros N; [auto|].
  assert (v <> u) by (intros ->; apply N; left; reflexivity). assert (E : Nat.eqb v u = false) by (apply Nat.eqb_neq; auto).
  destruct IH as [I1 I2]; [intros I; apply N; right; exact I|]. cbn. rewrite E. auto.
Qed.
Lemma runs_split es us u es1 seen eod facts en es2 : runs es us -> es = es1 ++ ERun u seen eod facts en :: es2 -> In u us.
Proof.
  intros R ->. apply Forall2_app_inv_l in R. destruct R as (u1 & u2 & _ & R & ->). inversion R; subst.
  destruct H1 as (? & ? & ? & ? & E). injection E; intros; subst. apply in_or_app. right. left. reflexivity.
Qed.
Lemma runs_arrived es us : runs es us -> arrived es = [] /\ arrived_eod es = false.
Proof. induction 1 as [|e v es us (seen & eod & facts & en & ->) H IH]; [auto|]. cbn. exact IH. Qed.

Definition J (m : mem) (fs : list flt) (tr : list event) : Prop :=
  Forall (fun f => s_data (m_str m (f_input f)) = sent tr (f_unit f) /\ s_frozen (m_str m (f_input f)) = sent_eod tr (f_unit f)) fs.

Record flushed (m : mem) (src off : nat) (fs : list flt) (tr : list event) (p : option nat) (m' : mem) (fs' : list flt) (es : list event) : Prop := {
  fl_static : map static fs' = map static fs;
  fl_fwd : m_fwd m' = m_fwd m;
  fl_next : m_next m' = m_next m;
  fl_other : forall j, ~ In j (map f_input fs) -> m_str m' j = m_str m j;
  fl_J : J m' fs' (tr ++ es);
  fl_runs : runs es (map f_unit fs);
  fl_seen : forall es1 u seen eod facts en es2, es = es1 ++ ERun u seen eod facts en :: es2 ->
    match before_from p (map f_unit fs) u with
    | None => seen = skipn off (s_data (m_str m src)) /\ eod = s_frozen (m_str m src)
    | Some q => seen = sent (tr ++ es1) q /\ eod = sent_eod (tr ++ es1) q
    end;
  fl_complete : Forall (fun f => exists es1 facts en es2,
    es = es1 ++ ERun (f_unit f) (skipn (f_off f) (s_data (m_str m' (f_src f)))) (s_frozen (m_str m' (f_src f))) facts en :: es2 /\
    ~ (exists se eo fa e2, In (ERun (f_unit f) se eo fa e2) es2) /\
    (en = true <-> f_res f = Ended)) fs';
  fl_ext : forall j, exists z, s_data (m_str m' j) = s_data (m_str m j) ++ z }.

Lemma J_app m fs tr es us : J m fs tr -> runs es us -> (forall f, In f fs -> ~ In (f_unit f) us) -> J m fs (tr ++ es).
Proof.
  unfold J. rewrite !Forall_forall. intros H R N f I. destruct (H f I) as [H1 H2]. destruct (runs_in es us (f_unit f) R (N f I)) as [S1 S2].
  rewrite sent_app, sent_eod_app, S1, S2, app_nil_r, orb_false_r. auto.
Qed.

Lemma flush_spec fs : forall m src off tr p m' fs' es,
  chained src off fs -> wired m src fs -> J m fs tr ->
  match p with None => True | Some q => skipn off (s_data (m_str m src)) = sent tr q /\ s_frozen (m_str m src) = sent_eod tr q end ->
  flush m fs = Ok (m', fs', es) -> flushed m src off fs tr p m' fs' es.
Proof.
  induction fs as [|f fs IH]; intros m src off tr p m' fs' es C W HJ P H; cbn [FilterModel.flush] in H.
  { injection H; intros; subst. assert (JJ : J m' [] (tr ++ [])) by apply Forall_nil. split; auto.
    - constructor.
    - intros es1 u seen eod facts en es2 E. destruct es1; discriminate.
    - intros j. exists []. rewrite app_nil_r. reflexivity. }
  destruct (f_res f) as [|s|]; try discriminate.
  destruct (run_filter m f s) as [[[m1 f1] e]| |] eqn:R; cbn [bind] in H; try discriminate.
  destruct (flush m1 fs) as [[[m2 r2] es2]| |] eqn:F; cbn [bind] in H; try discriminate.
  injection H; intros; subst. clear H.
  destruct (run_ran _ _ _ _ _ _ R) as (facts & en & [RE RS RF RR]).
  destruct C as (C1 & C2 & C3). destruct W as (W1 & W2 & W3). inversion W3 as [|? ? W3a W3b]; subst.
  destruct (RF _ W3a) as (g1 & g2 & g3 & g4 & g5).
  pose proof (static_fields _ _ RS) as (su & si & ss & so).
  inversion W1 as [|? ? W1a W1b]; subst. cbn [map] in W1b. inversion W1b as [|? ? W1c W1d]; subst.
  cbn [map] in W2. inversion W2 as [|? ? W2a W2b]; subst.
  set (e := ERun (f_unit f) (skipn (f_off f) (s_data (m_str m (f_src f)))) (s_frozen (m_str m (f_src f))) facts en) in *.
  inversion HJ as [|? ? [J1 J2] HJ']; subst.
  assert (Se : sent (tr ++ [e]) (f_unit f) = sent tr (f_unit f) ++ fact_data facts).
  { rewrite sent_app. cbn. rewrite Nat.eqb_refl, app_nil_r. reflexivity. }
  assert (Ze : sent_eod (tr ++ [e]) (f_unit f) = sent_eod tr (f_unit f) || (fact_eod facts || en)).
  { rewrite sent_eod_app. cbn. rewrite Nat.eqb_refl, orb_false_r. reflexivity. }
  assert (Jf : s_data (m_str m1 (f_input f)) = sent (tr ++ [e]) (f_unit f) /\ s_frozen (m_str m1 (f_input f)) = sent_eod (tr ++ [e]) (f_unit f)).
  { rewrite Se, Ze, g4, g5, J1, J2. auto. }
  assert (Je : runs [e] [f_unit f]) by (constructor; [exists (skipn (f_off f) (s_data (m_str m (f_src f)))), (s_frozen (m_str m (f_src f))), facts, en; reflexivity|constructor]).
  assert (Jr : J m1 fs (tr ++ [e])).
  { apply J_app with (us := [f_unit f]); [|exact Je|].
    - unfold J in *. rewrite Forall_forall in *. intros x I. rewrite g3; [auto|]. intros E. apply W1c. rewrite <- E. apply in_map. exact I.
    - intros x I [E|[]]. apply W2a. rewrite E. apply in_map. exact I. }
  assert (IH' := IH m1 (f_input f) 0 (tr ++ [e]) (Some (f_unit f)) m' r2 es2 C3).
  destruct IH' as [h1 h2 hn h3 h4 h5 h6 h7 h8]; auto.
  { split; [constructor; auto|]. split; [auto|]. rewrite g1. auto. }
  assert (Ni : ~ In (f_input f) (map f_input fs)) by (intros I; apply W1c; exact I).
  assert (Ns : ~ In (f_src f) (map f_input fs)).
  { intros I. apply W1a. right. exact I. }
  assert (Nsi : f_src f <> f_input f) by (intros E; apply W1a; left; congruence).
  assert (Srs : m_str m' (f_src f) = m_str m (f_src f)).
  { rewrite h3 by exact Ns. apply g3. exact Nsi. }
  constructor.
  - cbn. congruence.
  - congruence.
  - congruence.
  - cbn. intros j N. rewrite h3 by tauto. apply g3. intros E. apply N. left. congruence.
  - change (e :: es2) with ([e] ++ es2). rewrite app_assoc. constructor; [|exact h4].
    rewrite si, su, h3 by exact Ni. destruct (runs_in es2 _ (f_unit f) h5 W2a) as [S1 S2].
    rewrite sent_app, sent_eod_app, S1, S2, app_nil_r, orb_false_r. exact Jf.
  - cbn. constructor; [|exact h5]. exists (skipn (f_off f) (s_data (m_str m (f_src f)))), (s_frozen (m_str m (f_src f))), facts, en. reflexivity.
  - intros es1 u seen eod facts' en' es2' E. cbn [map before_from]. destruct es1 as [|e1 es1].
    + injection E; intros; subst. rewrite Nat.eqb_refl. rewrite app_nil_r. destruct p as [q|]; [|auto]. exact P.
    + injection E; intros; subst e1. pose proof (runs_split _ _ _ _ _ _ _ _ _ h5 H) as I.
      assert (X : Nat.eqb (f_unit f) u = false) by (apply Nat.eqb_neq; intros EE; apply W2a; rewrite EE; exact I). rewrite X.
      pose proof (h6 _ _ _ _ _ _ _ H) as G.
      assert (B : before_from (Some (f_unit f)) (map f_unit fs) u <> None).
      { clear -I. revert I. generalize (f_unit f). induction (map f_unit fs) as [|a l IHl]; intros n [].
        - subst. cbn. rewrite Nat.eqb_refl. discriminate.
        - cbn. destruct (Nat.eqb a u); [discriminate|]. apply IHl. exact H. }
      destruct (before_from (Some (f_unit f)) (map f_unit fs) u) as [q|]; [|congruence].
      rewrite <- app_assoc in G. exact G.
  - constructor.
    + exists [], facts, en, es2. rewrite su, ss, so, Srs. split; [reflexivity|]. split.
      * intros (se & eo & fa & e2 & I). apply in_split in I. destruct I as (l1 & l2 & ->).
        apply W2a. eapply runs_split; [exact h5|reflexivity].
      * destruct en; [destruct RR as [RR _]; rewrite RR; tauto|]. destruct RR as (s' & RR & _). rewrite RR. split; discriminate.
    + rewrite Forall_forall in *. intros x I. destruct (h7 x I) as (es1 & fa & e2 & es3 & -> & K1 & K2).
      exists (e :: es1), fa, e2, es3. auto.
  - intros j. destruct (h8 j) as [z Z]. rewrite Z. destruct (Nat.eq_dec j (f_input f)) as [->|N].
    + rewrite g4. rewrite <- app_assoc. eauto.
    + rewrite g3 by exact N. eauto.
Qed.

Variable start : nat -> S.
(** init is a flush of the started filters *)
Fixpoint started (src off : nat) (fs : list flt) : list flt :=
  match fs with [] => [] | f :: r => mkF (f_unit f) (f_input f) src off (Suspended (start (f_unit f))) :: started (f_input f) 0 r end.

Lemma init_flush fs : forall m src off, init_go start beh m src off fs = flush m (started src off fs).
Proof.
  induction fs as [|f fs IH]; intros m src off; [reflexivity|]. cbn [init_go started FilterModel.flush f_res].
  unfold FilterModel.run_filter. cbn [f_unit f_src f_off f_input].
  destruct (beh (f_unit f) (start (f_unit f)) (skipn off (s_data (m_str m src))) (s_frozen (m_str m src))) as [facts v].
  destruct (do_facts m (f_unit f) facts) as [m1 [ex|]]; [reflexivity|]. destruct v; cbn [bind]; try reflexivity; rewrite IH; reflexivity.
Qed.
Lemma started_chained fs : forall src off, chained src off (started src off fs).
Proof. induction fs; intros; cbn; auto. Qed.
Lemma started_maps fs : forall src off, map f_unit (started src off fs) = map f_unit fs /\ map f_input (started src off fs) = map f_input fs.
Proof. induction fs as [|f fs IH]; intros; cbn; auto. destruct (IH (f_input f) 0) as [-> ->]. auto. Qed.
Lemma started_fwd (m : mem) fs : forall src off, Forall (fun f => m_fwd m (f_unit f) = Some (f_input f)) fs ->
  Forall (fun f => m_fwd m (f_unit f) = Some (f_input f)) (started src off fs).
Proof. induction fs as [|f fs IH]; intros src off H; cbn; inversion H; subst; constructor; auto. Qed.
Lemma started_J (m : mem) fs : forall src off, Forall (fun f => m_str m (f_input f) = mkStream [] false) fs -> J m (started src off fs) [].
Proof. induction fs as [|f fs IH]; intros src off H; cbn; inversion H; subst; constructor; cbn; [rewrite H2; auto|apply IH; auto]. Qed.
End P.
