From Verif Require Import Base FiberModel FilterModel FilterSpec FilterProofs.

Section P.
Context {S : Type}.
Variable beh : nat -> S -> bytes -> bool -> list fact * verdict S.
Notation flt := (onefilter S).

(** the host's input *)
Lemma iops_spec data os : forall m m', iops data m os = Ok m' ->
  m_fwd m' = m_fwd m /\ m_next m' = m_next m /\ (forall j, j <> data -> m_str m' j = m_str m j) /\
  s_data (m_str m' data) = s_data (m_str m data) ++ arrived (map iop_ev os) /\
  s_frozen (m_str m' data) = s_frozen (m_str m data) || arrived_eod (map iop_ev os).
Proof.
  induction os as [|o os IH]; intros m m' H; cbn [iops] in H.
  - injection H; intros; subst. cbn. rewrite app_nil_r, orb_false_r. auto.
  - destruct (iop_do data m o) as [m1| |] eqn:D; cbn [bind] in H; try discriminate.
    destruct (IH _ _ H) as (a1 & a2 & a3 & a4 & a5).
    assert (G : m_fwd m1 = m_fwd m /\ m_next m1 = m_next m /\ (forall j, j <> data -> m_str m1 j = m_str m j) /\
      s_data (m_str m1 data) = s_data (m_str m data) ++ arrived [iop_ev o] /\
      s_frozen (m_str m1 data) = s_frozen (m_str m data) || arrived_eod [iop_ev o]).
    { destruct o as [bs|]; cbn in D.
      - destruct (s_append (m_str m data) bs) as [s| |] eqn:A; cbn in D; try discriminate. injection D; intros; subst.
        apply s_append_ok in A. destruct A as [A1 A2]. cbn. rewrite fup_same, app_nil_r, orb_false_r.
        repeat split; auto. intros. apply fup_other; auto.
      - injection D; intros; subst. cbn. rewrite fup_same, app_nil_r, orb_true_r. cbn. repeat split; auto. intros. apply fup_other; auto. }
    destruct G as (b1 & b2 & b3 & b4 & b5).
    change (map iop_ev (o :: os)) with ([iop_ev o] ++ map iop_ev os). rewrite arrived_app, arrived_eod_app.
    split; [congruence|]. split; [congruence|]. split; [intros; rewrite a3, b3; auto|]. split.
    + rewrite a4, b4, app_assoc. reflexivity.
    + rewrite a5, b5, orb_assoc. reflexivity.
Qed.

Lemma iop_ev_sent os u : sent (map iop_ev os) u = [] /\ sent_eod (map iop_ev os) u = false.
Proof. induction os as [|o os [I1 I2]]; [auto|]. destruct o; cbn; auto. Qed.

Lemma split_two (A : Type) (a b c d : list A) x : a ++ b = c ++ x :: d ->
  (exists d', a = c ++ x :: d' /\ d = d' ++ b) \/ (exists c', c = a ++ c' /\ b = c' ++ x :: d).
Proof.
  revert c. induction a as [|y a IH]; intros c E; cbn in E.
  - right. exists c. auto.
  - destruct c as [|z c]; cbn in E; injection E; intros; subst.
    + left. exists a. auto.
    + destruct (IH _ H) as [(d' & -> & ->)|(c' & -> & ->)]; [left; exists d'; auto|right; exists c'; auto].
Qed.

Lemma iop_no_run os c u seen eod facts en d : map iop_ev os <> c ++ ERun u seen eod facts en :: d.
Proof.
  intros E. assert (I : In (ERun u seen eod facts en) (map iop_ev os)) by (rewrite E; apply in_or_app; right; left; reflexivity).
  apply in_map_iff in I. destruct I as (o & I & _). destruct o; discriminate.
Qed.

(** state of a run: the history so far explains everything *)
Record explained (data off : nat) (D0 : bytes) (Z0 : bool) (us : list nat) (m : mem) (fs : list flt) (tr : list event) : Prop := {
  x_units : map f_unit fs = us;
  x_chain : chained data off fs;
  x_wired : wired m data fs;
  x_J : J m fs tr;
  x_data : s_data (m_str m data) = D0 ++ arrived tr;
  x_froz : s_frozen (m_str m data) = Z0 || arrived_eod tr;
  x_seen : forall tr1 u seen eod facts en tr2, tr = tr1 ++ ERun u seen eod facts en :: tr2 ->
    match before us u with
    | None => seen = skipn off (D0 ++ arrived tr1) /\ eod = Z0 || arrived_eod tr1
    | Some q => seen = sent tr1 q /\ eod = sent_eod tr1 q
    end }.

Definition complete (m : mem) (fs : list flt) (tr : list event) : Prop :=
  Forall (fun f => exists tr1 facts en tr2,
    tr = tr1 ++ ERun (f_unit f) (skipn (f_off f) (s_data (m_str m (f_src f)))) (s_frozen (m_str m (f_src f))) facts en :: tr2 /\
    ~ (exists se eo fa e2, In (ERun (f_unit f) se eo fa e2) tr2) /\
    (en = true <-> f_res f = Ended)) fs.

Lemma flush_explained data off D0 Z0 us m fs tr m' fs' es :
  explained data off D0 Z0 us m fs tr -> flush beh m fs = Ok (m', fs', es) ->
  explained data off D0 Z0 us m' fs' (tr ++ es) /\ complete m' fs' (tr ++ es).
Proof.
  intros [X1 X2 X3 X4 X5 X6 X7] F.
  destruct (flush_spec beh fs m data off tr None m' fs' es X2 X3 X4 Logic.I F) as [h1 h2 hn h3 h4 h5 h6 h7 h8].
  destruct (runs_arrived _ _ h5) as [A1 A2].
  assert (Nd : ~ In data (map f_input fs)) by (destruct X3 as (W & _); inversion W; auto).
  split.
  - constructor.
    + rewrite <- X1. apply (map_static_unit _ _ h1).
    + eapply chained_static; eauto.
    + eapply wired_static; eauto.
    + exact h4.
    + rewrite h3 by exact Nd. rewrite arrived_app, A1, app_nil_r. exact X5.
    + rewrite h3 by exact Nd. rewrite arrived_eod_app, A2, orb_false_r. exact X6.
    + intros tr1 u seen eod facts en tr2 E. apply split_two in E. destruct E as [(d' & E & _)|(c' & -> & E)].
      * exact (X7 _ _ _ _ _ _ _ E).
      * pose proof (h6 _ _ _ _ _ _ _ E) as G. unfold before. rewrite <- X1. 
        destruct (before_from None (map f_unit fs) u) as [q|]; [exact G|]. destruct G as [G1 G2].
        assert (A : arrived c' = [] /\ arrived_eod c' = false).
        { rewrite E in A1, A2. rewrite arrived_app in A1. rewrite arrived_eod_app in A2. apply app_eq_nil in A1. apply orb_false_iff in A2. tauto. }
        rewrite arrived_app, arrived_eod_app. destruct A as [-> ->]. rewrite app_nil_r, orb_false_r, <- X5, <- X6. auto.
  - unfold complete. rewrite Forall_forall in *. intros f I. destruct (h7 f I) as (es1 & fa & en & es2 & -> & K1 & K2).
    exists (tr ++ es1), fa, en, es2. rewrite <- app_assoc. auto.
Qed.

Lemma iops_explained data off D0 Z0 us m fs tr os m' :
  explained data off D0 Z0 us m fs tr -> iops data m os = Ok m' -> explained data off D0 Z0 us m' fs (tr ++ map iop_ev os).
Proof.
  intros [X1 X2 X3 X4 X5 X6 X7] I. destruct (iops_spec _ _ _ _ I) as (a1 & a2 & a3 & a4 & a5).
  assert (Nd : ~ In data (map f_input fs)) by (destruct X3 as (W & _); inversion W; auto).
  constructor; auto.
  - destruct X3 as (W1 & W2 & W3). split; [auto|]. split; [auto|]. rewrite a1. auto.
  - unfold J in *. rewrite Forall_forall in *. intros f If. destruct (X4 f If) as [J1 J2]. destruct (iop_ev_sent os (f_unit f)) as [S1 S2].
    rewrite sent_app, sent_eod_app, S1, S2, app_nil_r, orb_false_r. rewrite a3; [auto|]. intros E. apply Nd. rewrite <- E. apply in_map; auto.
  - rewrite a4, X5, arrived_app, app_assoc. reflexivity.
  - rewrite a5, X6, arrived_eod_app, orb_assoc. reflexivity.
  - intros tr1 u seen eod facts en tr2 E. apply split_two in E. destruct E as [(d' & E & _)|(c' & -> & E)].
    + exact (X7 _ _ _ _ _ _ _ E).
    + exfalso. exact (iop_no_run _ _ _ _ _ _ _ _ E).
Qed.

Lemma rounds_explained data off D0 Z0 us sched : forall m fs tr m' fs' es,
  explained data off D0 Z0 us m fs tr -> complete m fs tr -> rounds beh data m fs sched = Ok (m', fs', es) ->
  explained data off D0 Z0 us m' fs' (tr ++ es) /\ complete m' fs' (tr ++ es).
Proof.
  induction sched as [|os sched IH]; intros m fs tr m' fs' es X C R; cbn [rounds] in R.
  - injection R; intros; subst. rewrite app_nil_r. auto.
  - destruct (iops data m os) as [m1| |] eqn:I; cbn [bind] in R; try discriminate.
    destruct (flush beh m1 fs) as [[[m2 fs2] es2]| |] eqn:F; cbn [bind] in R; try discriminate.
    destruct (rounds beh data m2 fs2 sched) as [[[m3 fs3] es3]| |] eqn:R2; cbn [bind] in R; try discriminate.
    injection R; intros; subst. pose proof (iops_explained _ _ _ _ _ _ _ _ _ _ X I) as X1.
    destruct (flush_explained _ _ _ _ _ _ _ _ _ _ _ X1 F) as [X2 C2].
    destruct (IH _ _ _ _ _ _ X2 C2 R2) as [X3 C3].
    rewrite <- !app_assoc in *. auto.
Qed.

(** connecting *)
Definition fresh_mem (m : mem) (data : nat) (us : list nat) : Prop :=
  (data < m_next m)%nat /\ NoDup us.

Lemma connect_all_spec us : forall (m : mem) (fs : list flt) data m' fs',
  (data < m_next m)%nat -> NoDup (map f_unit fs ++ us) ->
  NoDup (data :: map f_input fs) -> Forall (fun f => (f_input f < m_next m)%nat /\ m_str m (f_input f) = mkStream [] false) fs ->
  Forall (fun f => m_fwd m (f_unit f) = Some (f_input f)) fs ->
  connect_all m fs us = (m', fs') ->
  (data < m_next m')%nat /\
  map f_unit fs' = map f_unit fs ++ us /\ NoDup (data :: map f_input fs') /\ Forall (fun f => (f_input f < m_next m')%nat /\ m_str m' (f_input f) = mkStream [] false) fs' /\
  Forall (fun f => m_fwd m' (f_unit f) = Some (f_input f)) fs' /\ m_str m' data = m_str m data.
Proof.
  induction us as [|u us IH]; intros m fs data m' fs' L N1 N2 Fr Fw H; cbn [connect_all connect] in H.
  { injection H; intros; subst. rewrite app_nil_r. repeat split; auto. }
  set (i := m_next m) in *.
  assert (Nu : ~ In u (map f_unit fs)).
  { intros I. apply NoDup_remove_2 in N1. apply N1. apply in_or_app. auto. }
  apply IH with (data := data) in H; clear IH.
  - destruct H as (h0 & h1 & h2 & h3 & h4 & h5). rewrite map_app in h1. cbn in h1. rewrite <- app_assoc in h1.
    split; [exact h0|]. split; [exact h1|]. split; [exact h2|]. split; [exact h3|]. split; [exact h4|].
    rewrite h5. cbn. apply fup_other. unfold i. lia.
  - cbn. lia.
  - rewrite map_app. cbn. rewrite <- app_assoc. exact N1.
  - rewrite map_app. cbn [map f_input]. 
    assert (Q : ~ In i (data :: map f_input fs)).
    { intros [E|I]; [subst; unfold i in L; lia|]. apply in_map_iff in I. destruct I as (f & E & I). rewrite Forall_forall in Fr. destruct (Fr f I). unfold i in E. lia. }
    change (data :: map f_input fs ++ [i]) with ((data :: map f_input fs) ++ [i]).
    clear -N2 Q. revert N2 Q. generalize (data :: map f_input fs). induction l as [|a l IHl]; intros N Q; cbn.
    + constructor; [tauto|constructor].
    + inversion N; subst. constructor; [|apply IHl; auto; intros X; apply Q; right; exact X].
      intros X. apply in_app_or in X. destruct X as [X|[X|[]]]; [auto|]. apply Q. left. congruence.
  - rewrite Forall_forall in *. intros f I. apply in_app_or in I. destruct I as [I|[<- | []]].
    + destruct (Fr f I) as [F1 F2]. cbn. split; [unfold i; lia|]. rewrite fup_other; [exact F2|unfold i; lia].
    + cbn. split; [lia|]. apply fup_same.
  - rewrite Forall_forall in *. intros f I. apply in_app_or in I. destruct I as [I|[<- | []]].
    + cbn. rewrite fup_other; [auto|]. intros E. apply Nu. rewrite <- E. apply in_map. exact I.
    + cbn. apply fup_same.
Qed.

Variable start : nat -> S.
Lemma filtered_explained m0 data off us sched m fs tr : fresh_mem m0 data us ->
  filtered_run start beh m0 data off us sched = Ok (m, fs, tr) ->
  explained data off (s_data (m_str m0 data)) (s_frozen (m_str m0 data)) us m fs tr /\ complete m fs tr.
Proof.
  intros [L N] H. unfold filtered_run in H. destruct (connect_all m0 [] us) as [m1 fs1] eqn:C.
  destruct (connect_all_spec us m0 [] data m1 fs1) as (h0 & h1 & h2 & h3 & h4 & h5); auto.
  { constructor; [intros []|constructor]. }
  destruct (init_go start beh m1 data off fs1) as [[[m2 fs2] es]| |] eqn:I; cbn [bind] in H; try discriminate.
  destruct (rounds beh data m2 fs2 sched) as [[[m3 fs3] es3]| |] eqn:R; cbn [bind] in H; try discriminate.
  injection H; intros; subst. clear H.
  rewrite init_flush in I. destruct (started_maps start fs1 data off) as [su si].
  assert (X : explained data off (s_data (m_str m0 data)) (s_frozen (m_str m0 data)) us m1 (started start data off fs1) []).
  { constructor.
    - rewrite su, h1. reflexivity.
    - apply started_chained.
    - split; [rewrite si; exact h2|]. split; [rewrite su, h1; exact N|]. apply started_fwd. exact h4.
    - apply started_J. rewrite Forall_forall in *. intros f If. apply h3; auto.
    - cbn. rewrite app_nil_r, h5. reflexivity.
    - cbn. rewrite orb_false_r, h5. reflexivity.
    - intros tr1 u seen eod facts en tr2 E. destruct tr1; discriminate. }
  destruct (flush_explained _ _ _ _ _ _ _ _ _ _ _ X I) as [X2 C2]. cbn [app] in X2, C2.
  exact (rounds_explained _ _ _ _ _ _ _ _ _ _ _ _ X2 C2 R).
Qed.

Lemma rev_last {A} (d : A) l : l <> [] -> match rev l with [] => d | x :: _ => x end = last l d.
Proof.
  destruct l as [|a l] using rev_ind; [congruence|]. intros _. rewrite rev_app_distr. cbn. rewrite last_last. reflexivity.
Qed.
Lemma out_last data off D0 Z0 us m fs tr : explained data off D0 Z0 us m fs tr -> us <> [] ->
  exists o f, out_stream fs = Some o /\ In f fs /\ f_input f = o /\ f_unit f = last us 0.
Proof.
  intros X N. destruct X as [X1 _ _ _ _ _ _]. destruct fs as [|f fs] using rev_ind; [subst; cbn in N; congruence|].
  exists (f_input f), f. unfold out_stream. rewrite rev_app_distr. cbn. split; [reflexivity|]. split; [apply in_or_app; right; left; reflexivity|].
  split; [reflexivity|]. rewrite <- X1, map_app. cbn. rewrite last_last. reflexivity.
Qed.
End P.
