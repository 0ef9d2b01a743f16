From Verif Require Import Base FiberModel FilterModel FilterSpec FilterProofs FilterProofs2 FilterProofs3.

Section P.
Context {S : Type}.
Variable beh : nat -> S -> bytes -> bool -> list fact * verdict S.
Variable start : nat -> S.
Notation flt := (onefilter S).

Lemma started_tracks (m : mem) Ts : forall fs src off,
  Forall (fun f => m_str m (f_input f) = mkStream [] false) fs ->
  Forall2 (fun f T => realises start beh (f_unit f) T) fs Ts ->
  Forall2 (tracks beh m) (started start src off fs) Ts.
Proof.
  induction Ts as [|T Ts IH]; intros fs src off E H; inversion H as [|f ? fs' ? Hf Hr]; subst; cbn; constructor.
  - destruct Hf as (R & R0 & RC). exists R. cbn. split; [exact RC|]. inversion E as [|? ? E1 E2]; subst. exists [], (skipn off (s_data (m_str m src))).
    rewrite E1. cbn. auto.
  - inversion E; subst. apply IH; auto.
Qed.

Lemma started_suspended (fs : list flt) : forall src off, all_suspended (started start src off fs).
Proof.
  induction fs as [|f fs IH]; intros src off; cbn; constructor; [cbn; eauto|]. apply IH.
Qed.

Lemma started_wired (m : mem) fs data off : NoDup (data :: map f_input fs) -> NoDup (map f_unit fs) ->
  Forall (fun f => m_fwd m (f_unit f) = Some (f_input f)) fs -> wired m data (started start data off fs).
Proof.
  intros A B C. destruct (started_maps start fs data off) as [M1 M2]. split; [|split].
  - rewrite M2. exact A.
  - rewrite M1. exact B.
  - apply started_fwd. exact C.
Qed.

Lemma map_Forall2 {A B C} (P : B -> C -> Prop) (f : A -> B) l l' : Forall2 P (map f l) l' -> Forall2 (fun a c => P (f a) c) l l'.
Proof.
  revert l'. induction l as [|a l IH]; intros l' H; inversion H; subst; constructor; auto.
Qed.

(** the state after connecting and starting *)
Lemma init_state m0 data off us m1 fs Ts : fresh_mem m0 data us -> us <> [] -> connect_all m0 [] us = (m1, fs) ->
  wired m1 data (started start data off fs) /\ started start data off fs <> [] /\ m_str m1 data = m_str m0 data /\
  (Forall2 (realises start beh) us Ts -> Forall2 (tracks beh m1) (started start data off fs) Ts).
Proof.
  intros [F1 F2] NE C. destruct (connect_all_spec beh us m0 [] data m1 fs F1 F2) as (c0 & c1 & c2 & c3 & c4 & c5); auto.
  { cbn. constructor; [auto|constructor]. }
  cbn in c1. split; [|split; [|split]].
  - apply started_wired; auto. rewrite c1. exact F2.
  - destruct fs; [cbn in c1; congruence|discriminate].
  - exact c5.
  - intros H. apply started_tracks.
    + eapply Forall_impl; [|exact c3]. cbn. tauto.
    + apply map_Forall2. rewrite c1. exact H.
Qed.

Lemma run_piped m0 data off us Ts sched m fs tr : fresh_mem m0 data us -> us <> [] -> Forall2 (realises start beh) us Ts ->
  filtered_run start beh m0 data off us sched = Ok (m, fs, tr) -> piped data off Ts m fs.
Proof.
  intros FM NE HT H. unfold filtered_run in H. destruct (connect_all m0 [] us) as [m1 fs1] eqn:C.
  destruct (init_state m0 data off us m1 fs1 Ts FM NE C) as (W & N & _ & T). specialize (T HT).
  rewrite init_flush in H. destruct (flush beh m1 (started start data off fs1)) as [[[m2 fs2] es2]| |] eqn:F; cbn [bind] in H; try discriminate.
  destruct (rounds beh data m2 fs2 sched) as [[[m3 fs3] es3]| |] eqn:R; cbn [bind] in H; try discriminate.
  injection H; intros; subst. clear H.
  pose proof (started_chained start fs1 data off) as CH.
  destruct (flush_tracks beh _ m1 data off Ts m2 fs2 es2 CH W T F N) as [T2 P2].
  destruct (flush_frame beh _ m1 data m2 fs2 es2 W F) as (k1 & k2 & k3 & k4 & k5).
  assert (Nd : ~ In data (map f_input (started start data off fs1))) by (destruct W as (V & _); inversion V; auto).
  eapply (rounds_piped beh data off Ts sched m2 fs2); eauto.
  - eapply chained_static; eauto.
  - eapply wired_static; eauto.
  - intros o Ho. rewrite (out_static _ _ k1) in Ho. rewrite (k4 _ Nd). apply P2. exact Ho.
  - intros ->. destruct (started start data off fs1); [congruence|discriminate].
Qed.

(** ** sinks *)
Definition sink_ok (i o c : nat) (Ts : list (bytes -> bool -> bytes * bool)) (got : bytes) (k : fsink S) : Prop :=
  fs_data k = Some (i, o, c) /\ chained i 0 (fs_flt k) /\ wired (fs_mem k) i (fs_flt k) /\ fs_flt k <> [] /\
  out_stream (fs_flt k) = Some o /\ Forall2 (tracks beh (fs_mem k)) (fs_flt k) Ts /\ piped i 0 Ts (fs_mem k) (fs_flt k) /\
  s_data (m_str (fs_mem k) i) = got /\ s_frozen (m_str (fs_mem k) i) = false /\
  concat (fs_out k) = firstn c (s_data (m_str (fs_mem k) o)).

Lemma set_str_iops m i s bs : s_append (m_str m i) bs = Ok s -> iops i m [IAppend bs] = Ok (set_str m i s).
Proof. intros H. cbn. rewrite H. reflexivity. Qed.

(** the second half of sink_deliver *)
Lemma deliver_step m fs i o c Ts got outs bs s m2 fs2 es :
  chained i 0 fs -> wired m i fs -> fs <> [] -> out_stream fs = Some o -> Forall2 (tracks beh m) fs Ts ->
  s_data (m_str m i) = got -> s_frozen (m_str m i) = false ->
  concat outs = firstn c (s_data (m_str m o)) -> (c <= length (s_data (m_str m o)))%nat ->
  s_append (m_str m i) bs = Ok s -> flush beh (set_str m i s) fs = Ok (m2, fs2, es) ->
  let piece := skipn c (s_data (m_str m2 o)) in
  let outs' := match piece with [] => outs | _ => outs ++ [piece] end in
  sink_ok i o (c + length piece) Ts (got ++ bs) (mkFS m2 fs2 (Some (i, o, c + length piece)%nat) outs') /\
  (c + length piece = length (s_data (m_str m2 o)))%nat.
Proof.
  intros C W NE O T G Fz CO CL A F piece outs'.
  pose proof (set_str_iops _ _ _ _ A) as I.
  assert (W1 : wired (set_str m i s) i fs).
  { destruct W as (V1 & V2 & V3). split; [auto|]. split; [auto|]. exact V3. }
  pose proof (iops_tracks beh _ _ _ _ _ _ _ C W T I) as T1.
  destruct (flush_tracks beh fs _ i 0 Ts m2 fs2 es C W1 T1 F NE) as [T2 P2].
  destruct (flush_frame beh fs _ i m2 fs2 es W1 F) as (k1 & k2 & k3 & k4 & k5).
  assert (Nd : ~ In i (map f_input fs)) by (destruct W as (V & _); inversion V; auto).
  destruct (s_append_ok _ _ _ A) as [A1 A2].
  assert (Oi : o <> i).
  { intros ->. apply Nd. unfold out_stream in O. destruct (rev fs) as [|h l] eqn:E; [discriminate|]. injection O; intros; subst.
    apply in_map. apply in_rev. rewrite E. left. reflexivity. }
  destruct (k5 o) as [z Z]. assert (Eo : m_str (set_str m i s) o = m_str m o) by (cbn; apply fup_other; exact Oi).
  rewrite Eo in Z.
  assert (L : (c + length piece = length (s_data (m_str m2 o)))%nat).
  { unfold piece. rewrite skipn_length, Z, app_length. clear -CL. lia. }
  split; [|exact L].
  unfold sink_ok. cbn [fs_data fs_flt fs_mem fs_out]. split; [reflexivity|]. split; [eapply chained_static; eauto|].
  split; [eapply wired_static; [exact k1|exact k2|exact W1]|]. split; [intros ->; destruct fs; [congruence|discriminate]|].
  split; [rewrite (out_static _ _ k1); exact O|]. split; [exact T2|]. split.
  { intros o' Ho. rewrite (out_static _ _ k1) in Ho. rewrite (k4 _ Nd). apply P2. exact Ho. }
  rewrite (k4 _ Nd). cbn [set_str m_str]. rewrite fup_same, A1, A2, G, Fz. split; [reflexivity|]. split; [reflexivity|].
  assert (X : concat outs' = concat outs ++ piece).
  { unfold outs'. destruct piece; [rewrite app_nil_r; reflexivity|]. rewrite concat_app. cbn. rewrite app_nil_r. reflexivity. }
  rewrite X, CO, L, firstn_all. transitivity (firstn c (s_data (m_str m2 o)) ++ piece).
  - f_equal. rewrite Z, firstn_app. replace (c - length (s_data (m_str m o)))%nat with 0%nat by lia. cbn. rewrite app_nil_r. reflexivity.
  - apply firstn_skipn.
Qed.

Lemma sink_deliver_ok i o c Ts got k bs k' : sink_ok i o c Ts got k -> (c <= length (s_data (m_str (fs_mem k) o)))%nat -> sink_deliver start beh k bs = Ok k' ->
  exists c', sink_ok i o c' Ts (got ++ bs) k' /\ c' = length (s_data (m_str (fs_mem k') o)).
Proof.
  intros (D & C & W & NE & O & T & P & G & Fz & CO) CL H. unfold sink_deliver in H. rewrite D in H. cbn [bind] in H.
  destruct (s_append (m_str (fs_mem k) i) bs) as [s| |] eqn:A; cbn [bind] in H; try discriminate.
  destruct (flush beh (set_str (fs_mem k) i s) (fs_flt k)) as [[[m2 fs2] es]| |] eqn:F; cbn [bind] in H; try discriminate.
  injection H; intros; subst k'. clear H.
  destruct (deliver_step (fs_mem k) (fs_flt k) i o c Ts got (fs_out k) bs s m2 fs2 es C W NE O T G Fz CO CL A F) as [Q1 Q2].
  eexists. split; [exact Q1|]. cbn [fs_mem]. exact Q2.
Qed.

Lemma sink_writes_ok i o Ts ws : forall c got k k', sink_ok i o c Ts got k -> c = length (s_data (m_str (fs_mem k) o)) ->
  sink_writes start beh k ws = Ok k' -> exists c', sink_ok i o c' Ts (got ++ concat ws) k' /\ c' = length (s_data (m_str (fs_mem k') o)).
Proof.
  induction ws as [|w ws IH]; intros c got k k' K L H; cbn [sink_writes] in H.
  - injection H; intros; subst. cbn. rewrite app_nil_r. eauto.
  - destruct (sink_deliver start beh k w) as [k1| |] eqn:D; cbn [bind] in H; try discriminate.
    destruct (sink_deliver_ok _ _ _ _ _ _ _ _ K ltac:(lia) D) as (c1 & K1 & L1).
    destruct (IH _ _ _ _ K1 L1 H) as (c2 & K2 & L2). exists c2. cbn [concat]. rewrite app_assoc. auto.
Qed.

Lemma first_deliver m0 us Ts m1 fs1 bs k' : (0 < m_next m0)%nat -> NoDup us -> us <> [] -> Forall2 (realises start beh) us Ts ->
  connect_all m0 [] us = (m1, fs1) -> sink_deliver start beh (mkFS m1 fs1 None []) bs = Ok k' ->
  exists i o c, sink_ok i o c Ts bs k' /\ c = length (s_data (m_str (fs_mem k') o)).
Proof.
  intros Z ND NE HT C H. destruct (connect_all_spec beh us m0 [] 0 m1 fs1 Z ND) as (c0 & c1 & c2 & c3 & c4 & c5); auto.
  { cbn. constructor; [auto|constructor]. }
  cbn in c1. unfold sink_deliver in H. cbn [fs_data fs_mem fs_flt fs_out] in H. set (i := m_next m1) in *.
  set (m1' := mkM (fup (m_str m1) i (mkStream [] false)) (Datatypes.S i) (m_fwd m1)) in *.
  rewrite init_flush in H.
  assert (Fi : Forall (fun f => f_input f <> i /\ m_str m1' (f_input f) = mkStream [] false) fs1).
  { eapply Forall_impl; [|exact c3]. cbn. intros f [L E]. fold i in L. split; [lia|]. rewrite fup_other by lia. exact E. }
  assert (Ni : ~ In i (map f_input fs1)).
  { intros I. apply in_map_iff in I. destruct I as (f & E & If). rewrite Forall_forall in Fi. destruct (Fi _ If). congruence. }
  assert (W : wired m1' i (started start i 0 fs1)).
  { apply started_wired; [|rewrite c1; exact ND|exact c4]. constructor; [exact Ni|]. inversion c2; auto. }
  assert (T : Forall2 (tracks beh m1') (started start i 0 fs1) Ts).
  { apply started_tracks.
    - eapply Forall_impl; [|exact Fi]. cbn. tauto.
    - apply map_Forall2. rewrite c1. exact HT. }
  assert (N : started start i 0 fs1 <> []) by (destruct fs1; [cbn in c1; congruence|discriminate]).
  pose proof (started_chained start fs1 i 0) as CH.
  destruct (flush beh m1' (started start i 0 fs1)) as [[[m2 fs2] es2]| |] eqn:F; cbn [bind] in H; try discriminate.
  destruct (out_stream fs2) as [o|] eqn:O; cbn [bind] in H; try discriminate.
  destruct (s_append (m_str m2 i) bs) as [s| |] eqn:A; cbn [bind] in H; try discriminate.
  destruct (flush beh (set_str m2 i s) fs2) as [[[m3 fs3] es3]| |] eqn:F3; cbn [bind] in H; try discriminate.
  injection H; intros; subst k'. clear H.
  destruct (flush_tracks beh _ m1' i 0 Ts m2 fs2 es2 CH W T F N) as [T2 P2].
  destruct (flush_frame beh _ m1' i m2 fs2 es2 W F) as (k1 & k2 & k3 & k4 & k5).
  assert (Nd : ~ In i (map f_input (started start i 0 fs1))) by (destruct W as (V & _); inversion V; auto).
  assert (Ei : m_str m2 i = mkStream [] false) by (rewrite (k4 _ Nd); cbn; apply fup_same).
  destruct (deliver_step m2 fs2 i o 0 Ts [] [] bs s m3 fs3 es3) as [Q1 Q2]; auto.
  - eapply chained_static; eauto.
  - eapply wired_static; eauto.
  - intros ->. destruct (started start i 0 fs1); [congruence|discriminate].
  - rewrite Ei. reflexivity.
  - rewrite Ei. reflexivity.
  - lia.
  - exists i, o. eexists. split; [exact Q1|]. exact Q2.
Qed.

Lemma sink_pipe m0 us Ts m1 fs1 ws k' : (0 < m_next m0)%nat -> NoDup us -> us <> [] -> Forall2 (realises start beh) us Ts -> ws <> [] ->
  connect_all m0 [] us = (m1, fs1) -> sink_writes start beh (mkFS m1 fs1 None []) ws = Ok k' ->
  concat (fs_out k') = fst (pipe Ts (concat ws) false).
Proof.
  intros Z ND NE HT NW C H. destruct ws as [|w ws]; [congruence|]. cbn [sink_writes] in H.
  destruct (sink_deliver start beh (mkFS m1 fs1 None []) w) as [k1| |] eqn:D; cbn [bind] in H; try discriminate.
  destruct (first_deliver _ _ _ _ _ _ _ Z ND NE HT C D) as (i & o & c & K & L).
  destruct (sink_writes_ok _ _ _ _ _ _ _ _ K L H) as (c2 & (_ & _ & _ & _ & O & _ & P & G & Fz & CO) & L2).
  cbn [concat]. specialize (P _ O). cbn [skipn] in P. rewrite G, Fz in P. rewrite P. cbn [fst]. rewrite CO, L2. apply firstn_all.
Qed.
End P.
