From Verif Require Import Base FiberModel FilterModel FilterSpec FilterProofs FilterProofs2.

Section P.
Context {S : Type}.
Variable beh : nat -> S -> bytes -> bool -> list fact * verdict S.
Notation flt := (onefilter S).

(** ** stream functions *)
Definition closed_under (u : nat) (T : bytes -> bool -> bytes * bool) (R : S -> bytes -> bytes -> Prop) : Prop :=
  forall s x y x' fz facts v, R s x y -> (exists z, x' = x ++ z) -> beh u s x' fz = (facts, v) ->
       fact_eod facts = false /\
       match v with
       | VYield s' => R s' x' (y ++ fact_data facts) /\ T x' fz = (y ++ fact_data facts, false)
       | VFinish => T x' fz = (y ++ fact_data facts, true)
       | VFail _ => True
       end.

Definition tracks (m : mem) (f : flt) (T : bytes -> bool -> bytes * bool) : Prop :=
  exists R, closed_under (f_unit f) T R /\
    match f_res f with
    | Suspended s => exists x z, R s x (s_data (m_str m (f_input f))) /\ skipn (f_off f) (s_data (m_str m (f_src f))) = x ++ z /\
                                 s_frozen (m_str m (f_input f)) = false
    | _ => True
    end.

Lemma out_cons (f : flt) fs o : out_stream (f :: fs) = Some o -> o = match fs with [] => f_input f | _ => match out_stream fs with Some o' => o' | None => 0 end end.
Proof.
  unfold out_stream. cbn. destruct fs as [|g fs]; cbn; [congruence|]. destruct (rev fs); cbn; congruence.
Qed.
Lemma out_static (fs fs' : list flt) : map static fs' = map static fs -> out_stream fs' = out_stream fs.
Proof.
  intros H. unfold out_stream. assert (E : map static (rev fs') = map static (rev fs)) by (rewrite !map_rev, H; reflexivity).
  destruct (rev fs'), (rev fs); cbn in E; try discriminate; [reflexivity|]. f_equal.
  assert (E1 : static o = static o0) by congruence. apply static_fields in E1. tauto.
Qed.

Lemma skipn_prefix {A} n (a b x z : list A) : skipn n a = x ++ z -> exists z', skipn n (a ++ b) = x ++ z'.
Proof.
  intros H. rewrite skipn_app. rewrite H. rewrite <- app_assoc. eauto.
Qed.

Lemma flush_frame fs : forall m src m' fs' es,
  wired m src fs -> flush beh m fs = Ok (m', fs', es) ->
  map static fs' = map static fs /\ m_fwd m' = m_fwd m /\ m_next m' = m_next m /\
  (forall j, ~ In j (map f_input fs) -> m_str m' j = m_str m j) /\ (forall j, exists z, s_data (m_str m' j) = s_data (m_str m j) ++ z).
Proof.
  induction fs as [|f fs IH]; intros m src m' fs' es W H; cbn [FilterModel.flush] in H.
  { injection H; intros; subst. repeat split; auto. intros j. exists []. rewrite app_nil_r. reflexivity. }
  destruct (f_res f) as [|s|] eqn:Rs; try discriminate.
  destruct (run_filter beh m f s) as [[[m1 f1] e]| |] eqn:Rn; cbn [bind] in H; try discriminate.
  destruct (flush beh m1 fs) as [[[m2 r2] es2]| |] eqn:F; cbn [bind] in H; try discriminate.
  injection H; intros; subst. clear H.
  destruct (run_ran _ _ _ _ _ _ _ Rn) as (facts & en & [RE RS RF RR]).
  destruct W as (W1 & W2 & W3). inversion W3 as [|? ? W3a W3b]; subst. destruct (RF _ W3a) as (g1 & g2 & g3 & g4 & g5).
  inversion W1 as [|? ? W1a W1b]; subst. cbn [map] in W1b. inversion W1b as [|? ? W1c W1d]; subst.
  cbn [map] in W2. inversion W2 as [|? ? W2a W2b]; subst.
  destruct (IH m1 (f_input f) m' r2 es2) as (h1 & h2 & h3 & h4 & h5); auto.
  { split; [constructor; auto|]. split; [auto|]. rewrite g1. auto. }
  split; [cbn; congruence|]. split; [congruence|]. split; [congruence|]. split.
  - cbn. intros j N. rewrite h4 by tauto. apply g3. intros E. apply N. left. congruence.
  - intros j. destruct (h5 j) as [z Z]. rewrite Z. destruct (Nat.eq_dec j (f_input f)) as [->|N].
    + rewrite g4. rewrite <- app_assoc. eauto.
    + rewrite g3 by exact N. eauto.
Qed.

Lemma flush_tracks fs : forall m src off Ts m' fs' es,
  chained src off fs -> wired m src fs -> Forall2 (tracks m) fs Ts -> flush beh m fs = Ok (m', fs', es) -> fs <> [] ->
  Forall2 (tracks m') fs' Ts /\
  forall o, out_stream fs = Some o -> pipe Ts (skipn off (s_data (m_str m src))) (s_frozen (m_str m src)) = (s_data (m_str m' o), s_frozen (m_str m' o)).
Proof.
  induction fs as [|f fs IH]; intros m src off Ts m' fs' es C W HT H NE; [congruence|]. clear NE.
  inversion HT as [|? T ? Ts' Tf Tr]; subst. cbn [FilterModel.flush] in H.
  destruct Tf as (R & CR & TR). destruct (f_res f) as [|s|] eqn:Rs; try discriminate.
  destruct (run_filter beh m f s) as [[[m1 f1] e]| |] eqn:Rn; cbn [bind] in H; try discriminate.
  destruct (flush beh m1 fs) as [[[m2 r2] es2]| |] eqn:F; cbn [bind] in H; try discriminate.
  injection H; intros; subst. clear H.
  destruct (run_ran _ _ _ _ _ _ _ Rn) as (facts & en & [RE RS RF RR]).
  destruct C as (C1 & C2 & C3). destruct W as (W1 & W2 & W3). inversion W3 as [|? ? W3a W3b]; subst.
  destruct (RF _ W3a) as (g1 & g2 & g3 & g4 & g5). pose proof (static_fields _ _ RS) as (su & si & ss & so).
  inversion W1 as [|? ? W1a W1b]; subst. cbn [map] in W1b. inversion W1b as [|? ? W1c W1d]; subst.
  cbn [map] in W2. inversion W2 as [|? ? W2a W2b]; subst.
  assert (W' : wired m1 (f_input f) fs).
  { split; [constructor; auto|]. split; [auto|]. rewrite g1. auto. }
  destruct TR as (x & z & TR1 & TR2 & TR3).
  assert (Nsi : f_src f <> f_input f) by (intros E; apply W1a; left; congruence).
  assert (Ns : ~ In (f_src f) (map f_input fs)) by (intros I; apply W1a; right; exact I).
  (* the head *)
  assert (HD : fact_eod facts = false /\ T (skipn (f_off f) (s_data (m_str m (f_src f)))) (s_frozen (m_str m (f_src f))) =
            (s_data (m_str m1 (f_input f)), s_frozen (m_str m1 (f_input f))) /\
            match f_res f1 with
            | Suspended s' => R s' (skipn (f_off f) (s_data (m_str m (f_src f)))) (s_data (m_str m1 (f_input f))) /\ s_frozen (m_str m1 (f_input f)) = false
            | _ => True end).
  { destruct en.
    - destruct RR as [R1 R2]. destruct (CR _ _ _ _ _ _ _ TR1 (ex_intro _ z TR2) R2) as [K1 K2]. cbn in K2. split; [exact K1|].
      rewrite g4, g5, K2, R1, TR3, K1. cbn. auto.
    - destruct RR as (s' & R1 & R2). destruct (CR _ _ _ _ _ _ _ TR1 (ex_intro _ z TR2) R2) as [K1 [K2 K3]]. split; [exact K1|].
      rewrite g4, g5, K3, R1, TR3, K1. cbn. auto. }
  destruct HD as (HD1 & HD2 & HD3).
  (* the rest is still tracked in m1 *)
  assert (Tr1 : Forall2 (tracks m1) fs Ts').
  { assert (G : forall src off fs Ts', chained src off fs -> (forall g, In g fs -> f_input g <> f_input f) -> Forall2 (tracks m) fs Ts' ->
        (forall j, exists z, s_data (m_str m1 j) = s_data (m_str m j) ++ z) -> Forall2 (tracks m1) fs Ts').
    { intros src0 off0 l Tl _ Nl Tk Ex. induction Tk as [|g Tg l Tl Hg Tk IHk]; [constructor|].
      constructor; [|apply IHk; intros g' Ig'; apply Nl; right; exact Ig']. destruct Hg as (R0 & C0 & M0). exists R0. split; [exact C0|]. destruct (f_res g); auto.
      destruct M0 as (x0 & z0 & M1 & M2 & M3). destruct (Ex (f_src g)) as [zz Ez]. rewrite Ez.
      destruct (skipn_prefix _ _ zz _ _ M2) as [z' Z']. exists x0, z'. rewrite (g3 (f_input g)) by (apply Nl; left; reflexivity). auto. }
    apply (G (f_input f) 0); auto.
    - intros g Ig E. apply W1c. rewrite <- E. apply in_map. exact Ig.
    - intros j. destruct (Nat.eq_dec j (f_input f)) as [->|Nj]; [eauto|]. rewrite g3 by exact Nj. exists []. rewrite app_nil_r. reflexivity. }
  destruct fs as [|g fs].
  { cbn in F. injection F; intros; subst. inversion Tr; subst. split.
    - constructor; [|constructor]. exists R. rewrite su. split; [exact CR|]. rewrite si, ss, so. destruct (f_res f1); auto.
      exists (skipn (f_off f) (s_data (m_str m (f_src f)))), []. rewrite app_nil_r. rewrite (g3 _ Nsi). tauto.
    - intros o Ho. cbn in Ho. injection Ho; intros; subst o. cbn [pipe]. rewrite HD2. reflexivity. }
  destruct (IH m1 (f_input f) 0 Ts' m' r2 es2 C3 W' Tr1 F ltac:(discriminate)) as [I1 I2].
  destruct (flush_frame _ _ _ _ _ _ W' F) as (k1 & k2 & k3 & k4 & k5).
  assert (Ni : ~ In (f_input f) (map f_input (g :: fs))) by (intros I; apply W1c; exact I).
  split.
  - constructor; [|exact I1]. exists R. rewrite su. split; [exact CR|]. rewrite si, ss, so. destruct (f_res f1); auto.
    exists (skipn (f_off f) (s_data (m_str m (f_src f)))), []. rewrite app_nil_r. rewrite (k4 _ Ni), (k4 _ Ns), (g3 _ Nsi). tauto.
  - intros o Ho. cbn [pipe]. rewrite HD2. apply out_cons in Ho.
    assert (Q : exists o', out_stream (g :: fs) = Some o').
    { unfold out_stream. cbn. destruct (rev fs); cbn; eauto. }
    destruct Q as [o' Q]. rewrite Q in Ho. subst o. rewrite <- (I2 _ Q). reflexivity.
Qed.

Lemma iops_tracks data off m fs Ts os m' : chained data off fs -> wired m data fs -> Forall2 (tracks m) fs Ts -> iops data m os = Ok m' -> Forall2 (tracks m') fs Ts.
Proof.
  intros C W T I. destruct (iops_spec _ _ _ _ I) as (a1 & a2 & a3 & a4 & a5). destruct W as (W1 & _). inversion W1; subst.
  assert (Ex : forall j, exists z, s_data (m_str m' j) = s_data (m_str m j) ++ z).
  { intros j. destruct (Nat.eq_dec j data) as [->|N]; [eauto|]. rewrite a3 by exact N. exists []. rewrite app_nil_r. reflexivity. }
  assert (Nl : forall g, In g fs -> f_input g <> data) by (intros g Ig E; apply H1; rewrite <- E; apply in_map; exact Ig).
  clear -T Ex Nl a3. induction T as [|g Tg l Tl Hg Tk IHk]; [constructor|].
  constructor; [|apply IHk; intros; apply Nl; right; assumption].
  destruct Hg as (R0 & C0 & M0). exists R0. split; [exact C0|]. destruct (f_res g); auto.
  destruct M0 as (x0 & z0 & M1 & M2 & M3). destruct (Ex (f_src g)) as [zz Ez]. rewrite Ez.
  destruct (skipn_prefix _ _ zz _ _ M2) as [z' Z']. exists x0, z'. rewrite (a3 (f_input g)) by (apply Nl; left; reflexivity). auto.
Qed.

Definition piped (data off : nat) (Ts : list (bytes -> bool -> bytes * bool)) (m : mem) (fs : list flt) : Prop :=
  forall o, out_stream fs = Some o -> pipe Ts (skipn off (s_data (m_str m data))) (s_frozen (m_str m data)) = (s_data (m_str m o), s_frozen (m_str m o)).

Lemma rounds_piped data off Ts sched : forall m fs m' fs' es,
  chained data off fs -> wired m data fs -> Forall2 (tracks m) fs Ts -> piped data off Ts m fs -> fs <> [] ->
  rounds beh data m fs sched = Ok (m', fs', es) -> piped data off Ts m' fs'.
Proof.
  induction sched as [|os sched IH]; intros m fs m' fs' es C W T P NE R; cbn [rounds] in R.
  - injection R; intros; subst. exact P.
  - destruct (iops data m os) as [m1| |] eqn:I; cbn [bind] in R; try discriminate.
    destruct (flush beh m1 fs) as [[[m2 fs2] es2]| |] eqn:F; cbn [bind] in R; try discriminate.
    destruct (rounds beh data m2 fs2 sched) as [[[m3 fs3] es3]| |] eqn:R2; cbn [bind] in R; try discriminate.
    injection R; intros; subst. clear R.
    assert (W1 : wired m1 data fs).
    { destruct (iops_spec _ _ _ _ I) as (a1 & _). destruct W as (V1 & V2 & V3). split; [auto|]. split; [auto|]. rewrite a1. auto. }
    pose proof (iops_tracks _ _ _ _ _ _ _ C W T I) as T1.
    destruct (flush_tracks fs m1 data off Ts m2 fs2 es2 C W1 T1 F NE) as [T2 P2].
    destruct (flush_frame fs m1 data m2 fs2 es2 W1 F) as (k1 & k2 & k3 & k4 & k5).
    assert (Nd : ~ In data (map f_input fs)) by (destruct W as (V & _); inversion V; auto).
    apply (IH m2 fs2 m' fs' es3); auto.
    + eapply chained_static; eauto.
    + eapply wired_static; eauto.
    + intros o Ho. rewrite (out_static _ _ k1) in Ho. rewrite (k4 _ Nd). apply P2. exact Ho.
    + intros ->. destruct fs; [congruence|discriminate].
Qed.

(** ** no resumption of an ended filter *)
Definition all_suspended (fs : list flt) : Prop := Forall (fun f => exists s, f_res f = Suspended s) fs.
Definition ended (f : flt) : Prop := f_res f = Ended.
Fixpoint suffix (m : mem) (fs : list flt) : Prop :=
  match fs with
  | [] => True
  | f :: r => (exists s, f_res f = Suspended s) /\ suffix m r \/ ended f /\ s_frozen (m_str m (f_input f)) = true /\ Forall ended r /\ Forall (fun g => s_frozen (m_str m (f_input g)) = true) r
  end.

Lemma do_facts_exn u fs : forall m m' e, do_facts m u fs = (m', Some e) -> e = Frozen.
Proof.
  induction fs as [|[bs|] fs IH]; intros m m' e H; cbn in H; [discriminate| |eauto].
  unfold forward in H. destruct (m_fwd m u) as [i|]; [|eauto]. unfold s_append in H. destruct bs.
  - cbn in H. eauto.
  - destruct (s_frozen (m_str m i)); cbn in H; [congruence|eauto].
Qed.

Hypothesis SUSP : suspends_for_input beh.
Hypothesis NOLOGIC : forall u s x z facts, beh u s x z <> (facts, VFail LogicError).

Lemma run_no_logic m f s : run_filter beh m f s <> Throw LogicError.
Proof.
  unfold FilterModel.run_filter. destruct (beh (f_unit f) s (skipn (f_off f) (s_data (m_str m (f_src f)))) (s_frozen (m_str m (f_src f)))) as [facts v] eqn:B.
  destruct (do_facts m (f_unit f) facts) as [m' [ex|]] eqn:D.
  - apply do_facts_exn in D. subst. discriminate.
  - destruct v; try discriminate. intros E. injection E; intros; subst. exact (NOLOGIC _ _ _ _ _ B).
Qed.

Lemma flush_suffix fs : forall m src off, chained src off fs -> wired m src fs -> all_suspended fs ->
  flush beh m fs <> Throw LogicError /\ forall m' fs' es, flush beh m fs = Ok (m', fs', es) ->
    suffix m' fs' /\ (s_frozen (m_str m src) = true -> Forall ended fs' /\ Forall (fun g => s_frozen (m_str m' (f_input g)) = true) fs').
Proof.
  induction fs as [|f fs IH]; intros m src off C W A; cbn [FilterModel.flush].
  { split; [discriminate|]. intros m' fs' es H. injection H; intros; subst. cbn. auto. }
  inversion A as [|? ? [s Rs] A']; subst. rewrite Rs.
  destruct (run_filter beh m f s) as [[[m1 f1] e]|ex|] eqn:Rn; cbn [bind].
  2: { split; [|discriminate]. intros E. apply (run_no_logic m f s). congruence. }
  2: { split; discriminate. }
  destruct (run_ran _ _ _ _ _ _ _ Rn) as (facts & en & [RE RS RF RR]).
  destruct C as (C1 & C2 & C3). destruct W as (W1 & W2 & W3). inversion W3 as [|? ? W3a W3b]; subst.
  destruct (RF _ W3a) as (g1 & g2 & g3 & g4 & g5). pose proof (static_fields _ _ RS) as (su & si & ss & so).
  inversion W1 as [|? ? W1a W1b]; subst. cbn [map] in W1b. inversion W1b as [|? ? W1c W1d]; subst.
  cbn [map] in W2. inversion W2 as [|? ? W2a W2b]; subst.
  assert (W' : wired m1 (f_input f) fs).
  { split; [constructor; auto|]. split; [auto|]. rewrite g1. auto. }
  destruct (IH m1 (f_input f) 0 C3 W' A') as [I1 I2].
  destruct (flush beh m1 fs) as [[[m2 r2] es2]|ex|] eqn:F; cbn [bind].
  2: { split; [|discriminate]. intros E. apply I1. congruence. }
  2: { split; discriminate. }
  split; [discriminate|]. intros m' fs' es H. injection H; intros; subst. clear H.
  destruct (I2 _ _ _ eq_refl) as [I3 I4].
  destruct (flush_frame _ _ _ _ _ _ W' F) as (k1 & k2 & k3 & k4 & k5).
  assert (Ni : ~ In (f_input f) (map f_input fs)) by (intros I; apply W1c; exact I).
  assert (EN : en = true -> ended f1 /\ s_frozen (m_str m' (f_input f1)) = true /\ Forall ended r2 /\ Forall (fun g => s_frozen (m_str m' (f_input g)) = true) r2).
  { intros ->. destruct RR as [R1 _]. split; [exact R1|]. rewrite si, (k4 _ Ni), g5, !orb_true_r. split; [reflexivity|].
    apply I4. rewrite g5, !orb_true_r. reflexivity. }
  split.
  - cbn. destruct en.
    + right. apply EN. reflexivity.
    + left. destruct RR as (s' & R1 & _). split; [eauto|exact I3].
  - intros Fz. destruct en.
    + destruct (EN eq_refl) as (E1 & E2 & E3 & E4). split; constructor; auto.
    + destruct RR as (s' & R1 & R2). rewrite Fz in R2. exfalso. exact (SUSP _ _ _ _ _ R2).
Qed.

Lemma suffix_open m fs o : suffix m fs -> out_stream fs = Some o -> s_frozen (m_str m o) = false -> all_suspended fs.
Proof.
  revert o. induction fs as [|f fs IH]; intros o Sx O Fz; [constructor|]. cbn in Sx. apply out_cons in O.
  assert (Q : fs = [] \/ exists o', out_stream fs = Some o').
  { unfold out_stream. destruct fs as [|g fs]; [auto|]. right. cbn. destruct (rev fs); cbn; eauto. }
  destruct Sx as [[Sa Sb]|(Sa & Sb & Sc & Sd)].
  - constructor; [exact Sa|]. destruct fs as [|g fs]; [constructor|]. destruct Q as [Q|[o' Q]]; [discriminate|]. rewrite Q in O. subst.
    eapply IH; eauto.
  - exfalso. destruct fs as [|g fs].
    + subst. congruence.
    + destruct Q as [Q|[o' Q]]; [discriminate|]. rewrite Q in O. subst o.
      assert (In o' (map f_input (g :: fs))).
      { unfold out_stream in Q. destruct (rev (g :: fs)) as [|h l] eqn:E; [discriminate|]. injection Q; intros; subst.
        apply in_map. apply in_rev. rewrite E. left. reflexivity. }
      apply in_map_iff in H. destruct H as (h & Hh & Ih). rewrite Forall_forall in Sd. specialize (Sd h Ih). rewrite Hh in Sd. congruence.
Qed.

Lemma iops_no_logic data os : forall m, iops data m os <> Throw LogicError.
Proof.
  induction os as [|o os IH]; intros m; cbn; [discriminate|]. destruct o as [bs|]; cbn.
  - unfold s_append. destruct bs; cbn; [apply IH|]. destruct (s_frozen (m_str m data)); cbn; [discriminate|apply IH].
  - apply IH.
Qed.

Lemma suffix_iops data off m m' os fs : chained data off fs -> wired m data fs -> iops data m os = Ok m' -> suffix m fs -> suffix m' fs.
Proof.
  intros C W I. destruct (iops_spec _ _ _ _ I) as (a1 & a2 & a3 & _). destruct W as (W1 & _). inversion W1; subst.
  assert (Nl : forall g, In g fs -> m_str m' (f_input g) = m_str m (f_input g)) by (intros g Ig; apply a3; intros E; apply H1; rewrite <- E; apply in_map; exact Ig).
  clear -Nl. induction fs as [|f fs IH]; cbn; auto. intros [[A B]|(A & B & D & E)].
  - left. split; [exact A|]. apply IH; auto. intros. apply Nl. right. assumption.
  - right. rewrite (Nl f) by (left; reflexivity). split; [exact A|]. split; [exact B|]. split; [exact D|].
    rewrite Forall_forall in *. intros g Ig. rewrite Nl by (right; exact Ig). auto.
Qed.

Lemma wait_no_logic data off out sched : forall pos old m fs, chained data off fs -> wired m data fs -> out_stream fs = Some out -> suffix m fs ->
  wait_filtered beh data out pos old m fs sched <> Throw LogicError.
Proof.
  induction sched as [|os sched IH]; intros pos old m fs C W O Sx; cbn [wait_filtered].
  - destruct (negb (length (s_data (m_str m out)) - pos =? old)); [discriminate|]. destruct (s_frozen (m_str m out)); discriminate.
  - destruct (negb (length (s_data (m_str m out)) - pos =? old)); [discriminate|]. destruct (s_frozen (m_str m out)) eqn:Fz; [discriminate|].
    destruct (iops data m os) as [m1|ex|] eqn:I; cbn [bind]; [| |discriminate].
    2: { intros E. apply (iops_no_logic data os m). congruence. }
    pose proof (suffix_open m fs out Sx O Fz) as A.
    assert (W1 : wired m1 data fs).
    { destruct (iops_spec _ _ _ _ I) as (a1 & _). destruct W as (V1 & V2 & V3). split; [auto|]. split; [auto|]. rewrite a1. auto. }
    destruct (flush_suffix fs m1 data off C W1 A) as [F1 F2].
    destruct (flush beh m1 fs) as [[[m2 fs2] es2]|ex|] eqn:F; cbn [bind]; [| |discriminate].
    2: { intros E. apply F1. congruence. }
    destruct (flush_frame fs m1 data m2 fs2 es2 W1 F) as (k1 & k2 & k3 & k4 & k5).
    apply IH.
    + eapply chained_static; eauto.
    + eapply wired_static; eauto.
    + rewrite (out_static _ _ k1). exact O.
    + apply (F2 _ _ _ eq_refl).
Qed.

Lemma wait_keeps data off out sched : forall pos old m fs w m' fs', chained data off fs -> wired m data fs -> out_stream fs = Some out -> suffix m fs ->
  wait_filtered beh data out pos old m fs sched = Ok (w, m', fs') -> chained data off fs' /\ wired m' data fs' /\ out_stream fs' = Some out /\ suffix m' fs'.
Proof.
  induction sched as [|os sched IH]; intros pos old m fs w m' fs' C W O Sx; cbn [wait_filtered].
  - destruct (negb (length (s_data (m_str m out)) - pos =? old)); [intros E; injection E; intros; subst; auto|].
    destruct (s_frozen (m_str m out)); intros E; injection E; intros; subst; auto.
  - destruct (negb (length (s_data (m_str m out)) - pos =? old)); [intros E; injection E; intros; subst; auto|].
    destruct (s_frozen (m_str m out)) eqn:Fz; [intros E; injection E; intros; subst; auto|].
    destruct (iops data m os) as [m1|ex|] eqn:I; cbn [bind]; try discriminate.
    pose proof (suffix_open m fs out Sx O Fz) as A.
    assert (W1 : wired m1 data fs).
    { destruct (iops_spec _ _ _ _ I) as (a1 & _). destruct W as (V1 & V2 & V3). split; [auto|]. split; [auto|]. rewrite a1. auto. }
    destruct (flush_suffix fs m1 data off C W1 A) as [F1 F2].
    destruct (flush beh m1 fs) as [[[m2 fs2] es2]|ex|] eqn:F; cbn [bind]; try discriminate.
    destruct (flush_frame fs m1 data m2 fs2 es2 W1 F) as (k1 & k2 & k3 & k4 & k5).
    apply IH.
    + eapply chained_static; eauto.
    + eapply wired_static; eauto.
    + rewrite (out_static _ _ k1). exact O.
    + apply (F2 _ _ _ eq_refl).
Qed.

Lemma waits_no_logic data off out ws : forall m fs, chained data off fs -> wired m data fs -> out_stream fs = Some out -> suffix m fs ->
  waits beh data out m fs ws <> Throw LogicError.
Proof.
  induction ws as [|[[pos old] sched] ws IH]; intros m fs C W O Sx; cbn [waits]; [discriminate|].
  pose proof (wait_no_logic data off out sched pos old m fs C W O Sx) as N.
  destruct (wait_filtered beh data out pos old m fs sched) as [[[w m1] fs1]|e|] eqn:E; cbn [bind]; [|congruence|discriminate].
  destruct (wait_keeps _ _ _ _ _ _ _ _ _ _ _ C W O Sx E) as (c1 & c2 & c3 & c4). apply IH; auto.
Qed.
End P.
