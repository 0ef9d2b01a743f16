(** C48: filters. *)
From Verif Require Import Base FiberModel FilterModel FilterSpec FilterProofs FilterProofs2 FilterProofs3 FilterProofs4.

Section Claims.
Context {S : Type}.

(** Whatever the filter units do and however input and flushes interleave: the unit behind the filters has in its input
    exactly what the last filter has forwarded, in that order, and sees the end of its data exactly if the last filter has
    signalled it or has ended. *)
Theorem C48_unit_gets_what_is_forwarded :
  forall (start : nat -> S) beh m0 data off us sched m fs tr,
  (data < m_next m0)%nat -> NoDup us -> us <> [] ->
  filtered_run start beh m0 data off us sched = Ok (m, fs, tr) ->
  exists o, out_stream fs = Some o /\ s_data (m_str m o) = sent tr (last us 0%nat) /\ s_frozen (m_str m o) = sent_eod tr (last us 0%nat).
Proof.
  intros start beh m0 data off us sched m fs tr L N NE H.
  destruct (filtered_explained beh start m0 data off us sched m fs tr (conj L N) H) as [X _].
  destruct (out_last _ _ _ _ _ _ _ _ X NE) as (o & f & O & If & E & U). exists o. split; [exact O|].
  pose proof (x_J _ _ _ _ _ _ _ _ X) as J. unfold FilterProofs.J in J. rewrite Forall_forall in J. specialize (J f If). rewrite E, U in J. exact J.
Qed.

(** Each time a filter runs, what it sees is exactly the input that has arrived so far, from the unit's position on, if it
    is the first filter, and exactly what the filter in front of it has forwarded so far otherwise; and it sees the end of
    data exactly if the input's end has arrived, or the filter in front has signalled it or has ended. *)
Theorem C48_filters_see_their_input :
  forall (start : nat -> S) beh m0 data off us sched m fs tr,
  (data < m_next m0)%nat -> NoDup us ->
  filtered_run start beh m0 data off us sched = Ok (m, fs, tr) ->
  forall tr1 u seen eod facts en tr2, tr = tr1 ++ ERun u seen eod facts en :: tr2 ->
  match before us u with
  | None => seen = skipn off (s_data (m_str m0 data) ++ arrived tr1) /\ eod = s_frozen (m_str m0 data) || arrived_eod tr1
  | Some p => seen = sent tr1 p /\ eod = sent_eod tr1 p
  end.
Proof.
  intros start beh m0 data off us sched m fs tr L N H.
  destruct (filtered_explained beh start m0 data off us sched m fs tr (conj L N) H) as [X _]. exact (x_seen _ _ _ _ _ _ _ _ X).
Qed.

(** No filter lags behind: when the unit continues after new input, the last run of each filter saw everything that there is
    for it to see, i.e. the whole input, respectively everything the filter in front has forwarded; and whatever its source has
    been appended since. *)
Theorem C48_no_filter_lags :
  forall (start : nat -> S) beh m0 data off us sched m fs tr,
  (data < m_next m0)%nat -> NoDup us ->
  filtered_run start beh m0 data off us sched = Ok (m, fs, tr) ->
  forall u, In u us -> exists tr1 seen eod facts en tr2,
    tr = tr1 ++ ERun u seen eod facts en :: tr2 /\
    ~ (exists se eo fa e2, In (ERun u se eo fa e2) tr2) /\
    match before us u with
    | None => seen = skipn off (s_data (m_str m0 data) ++ arrived tr) /\ eod = s_frozen (m_str m0 data) || arrived_eod tr
    | Some p => seen = sent tr p /\ eod = sent_eod tr p
    end.
Proof.
  intros start beh m0 data off us sched m fs tr L N H u Iu.
  destruct (filtered_explained beh start m0 data off us sched m fs tr (conj L N) H) as [X Cm].
  destruct X as [X1 X2 X3 X4 X5 X6 X7]. subst us. apply in_map_iff in Iu. destruct Iu as (f & Eu & If). subst u.
  pose proof Cm as Cm0. unfold complete in Cm. rewrite Forall_forall in Cm. destruct (Cm f If) as (tr1 & facts & en & tr2 & E & Nx & _).
  eexists tr1, _, _, facts, en, tr2. split; [exact E|]. split; [exact Nx|].
  (* the source of f *)
  assert (G : forall l p src of0, NoDup (map f_unit l) -> chained src of0 l -> In f l ->
      match before_from p (map f_unit l) (f_unit f) with
      | None => f_src f = src /\ f_off f = of0 /\ p = None
      | Some q => (p = Some q /\ f_src f = src /\ f_off f = of0) \/ exists g, In g l /\ f_unit g = q /\ f_src f = f_input g /\ f_off f = 0%nat
      end).
  { induction l as [|g l IH]; intros p src of0 ND C I; [destruct I|]. cbn. destruct C as (C1 & C2 & C3). cbn in ND. inversion ND as [|? ? ND1 ND2]; subst.
    destruct (Nat.eqb (f_unit g) (f_unit f)) eqn:Q.
    - apply Nat.eqb_eq in Q. assert (g = f).
      { destruct I as [->|I]; [reflexivity|]. exfalso. apply ND1. rewrite Q. apply in_map. exact I. }
      subst g. destruct p; [left; auto|auto].
    - destruct I as [->|I]; [rewrite Nat.eqb_refl in Q; discriminate|].
      specialize (IH (Some (f_unit g)) (f_input g) 0%nat ND2 C3 I).
      destruct (before_from (Some (f_unit g)) (map f_unit l) (f_unit f)) as [q|].
      + destruct IH as [(E1 & E2 & E3)|(h & E1 & E2 & E3 & E4)].
        * injection E1; intros; subst q. right. exists g. split; [left; reflexivity|auto].
        * right. exists h. split; [right; exact E1|auto].
      + destruct IH as (_ & _ & E). discriminate. }
  specialize (G fs None data off N X2 If). unfold before. destruct (before_from None (map f_unit fs) (f_unit f)) as [q|].
  - destruct G as [(G & _)|(g & G1 & G2 & G3 & G4)]; [discriminate|]. rewrite G3, G4. cbn [skipn]. unfold J in X4. rewrite Forall_forall in X4.
    destruct (X4 g G1) as [J1 J2]. rewrite J1, J2, G2. auto.
  - destruct G as (G1 & G2 & _). rewrite G1, G2, X5, X6. auto.
Qed.

(** If each filter computes a stream function [T] (however its input is cut up), then after any schedule the unit has got
    exactly the composition of these functions on the whole input so far: chunking, and how many filters are between, do not
    matter; and the unit sees the end of data exactly if the composition says so. *)
Theorem C48_schedule_independent :
  forall (start : nat -> S) beh m0 data off us Ts sched m fs tr,
  (data < m_next m0)%nat -> NoDup us -> us <> [] -> Forall2 (realises start beh) us Ts ->
  filtered_run start beh m0 data off us sched = Ok (m, fs, tr) ->
  exists o, out_stream fs = Some o /\
    (s_data (m_str m o), s_frozen (m_str m o)) =
    pipe Ts (skipn off (s_data (m_str m0 data) ++ arrived tr)) (s_frozen (m_str m0 data) || arrived_eod tr).
Proof.
  intros start beh m0 data off us Ts sched m fs tr L N NE HT H.
  destruct (filtered_explained beh start m0 data off us sched m fs tr (conj L N) H) as [X _].
  destruct (out_last _ _ _ _ _ _ _ _ X NE) as (o & f & O & If & E & U). exists o. split; [exact O|].
  pose proof (run_piped beh start m0 data off us Ts sched m fs tr (conj L N) NE HT H o O) as P.
  rewrite (x_data _ _ _ _ _ _ _ _ X), (x_froz _ _ _ _ _ _ _ _ X) in P. symmetry. exact P.
Qed.

(** what has arrived is what the host has supplied *)
Theorem C48_arrived_is_supplied :
  forall (beh : nat -> S -> bytes -> bool -> list fact * verdict S) data sched m fs m' fs' es,
  rounds beh data m fs sched = Ok (m', fs', es) -> arrived es = concat (map (fun os => arrived (map iop_ev os)) sched).
Proof.
  intros beh data. induction sched as [|os sched IH]; intros m fs m' fs' es H; cbn [rounds] in H.
  { injection H; intros; subst. reflexivity. }
  destruct (iops data m os) as [m1| |]; cbn [bind] in H; try discriminate.
  destruct (flush beh m1 fs) as [[[m2 fs2] es2]| |] eqn:F; cbn [bind] in H; try discriminate.
  destruct (rounds beh data m2 fs2 sched) as [[[m3 fs3] es3]| |] eqn:R; cbn [bind] in H; try discriminate.
  injection H; intros; subst. rewrite !arrived_app. cbn [map concat]. f_equal. rewrite (IH _ _ _ _ _ R).
  assert (A : arrived es2 = []); [|rewrite A; reflexivity]. clear -F. revert m1 m2 fs2 es2 F.
  induction fs as [|f fs IH]; intros m1 m2 fs2 es2 F; cbn [flush] in F; [injection F; intros; subst; reflexivity|].
  destruct (f_res f); try discriminate. destruct (run_filter beh m1 f s) as [[[m3 f3] e3]| |] eqn:Rn; cbn [bind] in F; try discriminate.
  destruct (flush beh m3 fs) as [[[m4 fs4] es4]| |] eqn:F4; cbn [bind] in F; try discriminate. injection F; intros; subst.
  destruct (run_ran _ _ _ _ _ _ _ Rn) as (facts & en & [RE _ _ _]). subst e3. cbn. eauto.
Qed.

(** A unit behind filters, waiting for input as often as it likes, never makes the runtime resume a filter that has ended
    (which would be an internal error), provided the filters suspend only to wait for more input. *)
Theorem C48_no_resumption_of_ended_filters :
  forall (start : nat -> S) beh m0 data off us m1 fs,
  (data < m_next m0)%nat -> NoDup us -> us <> [] ->
  suspends_for_input beh -> (forall u s x z facts, beh u s x z <> (facts, VFail LogicError)) ->
  connect_all m0 [] us = (m1, fs) ->
  init_go start beh m1 data off fs <> Throw LogicError /\
  forall m2 fs2 es o ws, init_go start beh m1 data off fs = Ok (m2, fs2, es) -> out_stream fs2 = Some o ->
    waits beh data o m2 fs2 ws <> Throw LogicError.
Proof.
  intros start beh m0 data off us m1 fs L N NE SU NL C.
  destruct (init_state beh start m0 data off us m1 fs [] (conj L N) NE C) as (W & Nn & _ & _). rewrite init_flush.
  pose proof (started_chained start fs data off) as CH.
  destruct (flush_suffix beh SU NL _ m1 data off CH W (started_suspended start fs data off)) as [F1 F2].
  split; [exact F1|]. intros m2 fs2 es o ws F O.
  destruct (flush_frame beh _ m1 data m2 fs2 es W F) as (k1 & k2 & k3 & k4 & k5).
  apply (waits_no_logic beh SU NL data off o).
  - eapply chained_static; eauto.
  - eapply wired_static; eauto.
  - exact O.
  - apply (F2 _ _ _ F).
Qed.

(** A sink with filters: as long as its writes succeed, what its units have been given is exactly the composition of the
    filters' stream functions on everything written, however it was cut up. *)
Theorem C48_sink_delivers_filtered_data :
  forall (start : nat -> S) beh m0 us Ts m1 fs ws k,
  (0 < m_next m0)%nat -> NoDup us -> us <> [] -> Forall2 (realises start beh) us Ts -> ws <> [] ->
  connect_all m0 [] us = (m1, fs) -> sink_writes start beh (mkFS m1 fs None []) ws = Ok k ->
  concat (fs_out k) = fst (pipe Ts (concat ws) false).
Proof. intros. eapply sink_pipe; eauto. Qed.
(** After disconnecting, what the filters still forward goes nowhere; other filters forward as before. *)
Theorem C48_disconnected_filters_forward_nowhere : forall m (fs : list (onefilter S)) m' fs' u, disconnect m fs = (m', fs') ->
  fs' = [] /\
  if existsb (fun f => Nat.eqb (f_unit f) u) fs
  then (forall bs, forward m' u bs = Ok m') /\ forward_eod m' u = m'
  else (forall bs i s, m_fwd m u = Some i -> s_append (m_str m i) bs = Ok s -> exists m2, forward m' u bs = Ok m2 /\ m_str m2 i = s).
Proof.
  intros m fs m' fs' u H. unfold disconnect in H. injection H as <- <-. split; [reflexivity|].
  destruct (existsb (fun f => Nat.eqb (f_unit f) u) fs) eqn:E; unfold forward, forward_eod; cbn [m_fwd m_str]; rewrite E; [auto|].
  intros bs i s F A. rewrite F, A. cbn [bind]. eexists. split; [reflexivity|]. unfold set_str, fup. cbn [m_str]. rewrite Nat.eqb_refl. reflexivity.
Qed.
Lemma sink_out_frame (start : nat -> S) beh k bs pre : sink_deliver start beh (mkFS (fs_mem k) (fs_flt k) (fs_data k) (pre ++ fs_out k)) bs =
  match sink_deliver start beh k bs with Ok k' => Ok (mkFS (fs_mem k') (fs_flt k') (fs_data k') (pre ++ fs_out k')) | Throw e => Throw e | UB => UB end.
Proof.
  unfold sink_deliver. cbn [fs_mem fs_flt fs_data fs_out].
  destruct (match fs_data k with Some d => _ | None => _ end) as [[[m1 fs1] [[i o] c]]| |]; cbn [bind]; [|reflexivity|reflexivity].
  destruct (s_append (m_str m1 i) bs) as [s| |]; cbn [bind]; [|reflexivity|reflexivity].
  destruct (flush beh (set_str m1 i s) fs1) as [[[m2 fs2] es]| |]; cbn [bind]; [|reflexivity|reflexivity].
  destruct (skipn c (s_data (m_str m2 o))); cbn [fs_mem fs_flt fs_data fs_out]; rewrite ?app_assoc; reflexivity.
Qed.
Lemma sink_writes_frame (start : nat -> S) beh ws : forall k pre, sink_writes start beh (mkFS (fs_mem k) (fs_flt k) (fs_data k) (pre ++ fs_out k)) ws =
  match sink_writes start beh k ws with Ok k' => Ok (mkFS (fs_mem k') (fs_flt k') (fs_data k') (pre ++ fs_out k')) | Throw e => Throw e | UB => UB end.
Proof.
  induction ws as [|w ws IH]; intros k pre; cbn [sink_writes]; [destruct k; reflexivity|]. rewrite sink_out_frame. destruct (sink_deliver start beh k w) as [k'| |]; cbn [bind]; auto.
Qed.
(** A sink that was closed can be used again, with other filters: these get just the data written after closing. *)
Theorem C48_sink_reused_after_close :
  forall (start : nat -> S) beh k us Ts m1 fs ws k',
  (0 < m_next (fs_mem k))%nat -> NoDup us -> us <> [] -> Forall2 (realises start beh) us Ts -> ws <> [] ->
  connect_all (fs_mem (sink_close k)) (fs_flt (sink_close k)) us = (m1, fs) ->
  sink_writes start beh (mkFS m1 fs (fs_data (sink_close k)) (fs_out (sink_close k))) ws = Ok k' ->
  concat (fs_out k') = concat (fs_out k) ++ fst (pipe Ts (concat ws) false).
Proof.
  intros start beh k us Ts m1 fs ws k' M N NE HT W C H. cbn [sink_close disconnect fs_mem fs_flt fs_data fs_out] in *.
  pose proof (sink_writes_frame start beh ws (mkFS m1 fs None []) (fs_out k)) as F. cbn [fs_mem fs_flt fs_data fs_out] in F. rewrite app_nil_r in F. rewrite F in H.
  destruct (sink_writes start beh (mkFS m1 fs None []) ws) as [k2| |] eqn:E; try discriminate. injection H as <-. cbn [fs_out]. rewrite concat_app. f_equal.
  eapply C48_sink_delivers_filtered_data; [|exact N|exact NE|exact HT|exact W|exact C|exact E]. cbn [m_next]. exact M.
Qed.
End Claims.

(** ** Concrete filters: state = number of bytes consumed *)
Local Open Scope Z_scope.
Definition m_ex : mem := mkM (fun _ => mkStream [] false) 1%nat (fun _ => None).
Definition inc (x : Z) : Z := x + 1.
(** unit 1 adds one to each byte; unit 2 drops nothing but holds everything back until its end of data; unit 3 ends at once
    after the first byte *)
Definition ex_beh (u : nat) (s : nat) (x : bytes) (z : bool) : list fact * verdict nat :=
  match u with
  | 1%nat => ([FData (map inc (skipn s x))], if z then VFinish else VYield (length x))
  | 2%nat => if z then ([FData x], VFinish) else ([], VYield 0%nat)
  | _ => match x with [] => if z then ([], VFinish) else ([], VYield 0%nat) | a :: _ => ([FData [a]], VFinish) end
  end.
Definition ex_start (_ : nat) : nat := 0%nat.

Lemma ex_realises1 : realises ex_start ex_beh 1%nat (fun x z => (map inc x, z)).
Proof.
  exists (fun s x y => s = length x /\ y = map inc x). split; [auto|].
  intros s x y x' fz facts v [-> ->] [z ->] B. unfold ex_beh in B. injection B; intros; subst. split; [reflexivity|].
  unfold fact_data; cbn [flat_map]; rewrite app_nil_r.
  assert (E : map inc x ++ map inc (skipn (length x) (x ++ z)) = map inc (x ++ z)).
  { rewrite skipn_app, skipn_all, Nat.sub_diag. cbn. rewrite map_app. reflexivity. }
  destruct fz; [exact (f_equal (fun q => (q, true)) (eq_sym E))|]. split; [split; [reflexivity|exact E]|exact (f_equal (fun q => (q, false)) (eq_sym E))].
Qed.
Lemma ex_realises2 : realises ex_start ex_beh 2%nat (fun x z => (if z then x else [], z)).
Proof.
  exists (fun s x y => y = []). split; [auto|].
  intros s x y x' fz facts v -> [z ->] B. cbn in B. destruct fz; injection B; intros; subst; cbn; rewrite ?app_nil_r; auto.
Qed.

Example C48_unit_gets_what_is_forwarded_nonvacuous :
  exists m fs tr, filtered_run ex_start ex_beh m_ex 0%nat 0%nat [1%nat; 2%nat] [[IAppend [5; 6]]; [IAppend [7]; IFreeze]] = Ok (m, fs, tr) /\
    sent tr 2%nat = [6; 7; 8] /\ sent_eod tr 2%nat = true /\ (0 < m_next m_ex)%nat /\ NoDup [1%nat; 2%nat].
Proof.
  eexists _, _, _. split; [reflexivity|]. repeat split; try reflexivity; [cbn; lia|]. repeat constructor; cbn; intuition lia.
Qed.
Example C48_schedule_independent_nonvacuous :
  Forall2 (realises ex_start ex_beh) [1%nat; 2%nat] [(fun x z => (map inc x, z)); (fun x (z : bool) => (if z then x else [], z))].
Proof. constructor; [apply ex_realises1|]. constructor; [apply ex_realises2|constructor]. Qed.
Example C48_filters_see_their_input_nonvacuous :
  exists m fs tr, filtered_run ex_start ex_beh m_ex 0%nat 0%nat [1%nat; 2%nat] [[IAppend [5; 6]]; [IAppend [7]; IFreeze]] = Ok (m, fs, tr) /\
    nth_error tr 8 = Some (ERun 2%nat [6; 7; 8] true [FData [6; 7; 8]] true) /\ sent (firstn 8 tr) 1 = [6; 7; 8] /\ before [1%nat; 2%nat] 2%nat = Some 1%nat.
Proof. eexists _, _, _. split; [reflexivity|]. repeat split; reflexivity. Qed.
Example C48_no_resumption_nonvacuous :
  suspends_for_input ex_beh /\ (forall u s x z facts, ex_beh u s x z <> (facts, VFail LogicError)) /\
  exists m1 fs m2 fs2 es m3 fs3, connect_all m_ex [] [1%nat; 3%nat] = (m1, fs) /\ init_go ex_start ex_beh m1 0%nat 0%nat fs = Ok (m2, fs2, es) /\
    out_stream fs2 = Some 2%nat /\ waits ex_beh 0%nat 2%nat m2 fs2 [(0%nat, 0%nat, [[]; [IAppend [5; 6]]]); (1%nat, 0%nat, [[IAppend [7]]])] = Ok (m3, fs3) /\
    s_data (m_str m3 2%nat) = [6] /\ s_frozen (m_str m3 2%nat) = true.
Proof.
  split; [|split].
  - intros [|[|[|u]]] s x facts s' B; cbn in B; try discriminate; destruct x; discriminate.
  - intros [|[|[|u]]] s x z facts B; cbn in B; destruct z; try discriminate; destruct x; discriminate.
  - eexists _, _, _, _, _, _, _. repeat split; reflexivity.
Qed.
Example C48_sink_nonvacuous :
  exists m1 fs k, connect_all m_ex [] [1%nat; 2%nat] = (m1, fs) /\ sink_writes ex_start ex_beh (mkFS m1 fs None []) [[1]; [2; 3]] = Ok k /\ fs_out k = [].
Proof. eexists _, _, _. repeat split; reflexivity. Qed.
Example C48_sink_nonvacuous2 :
  exists m1 fs k, connect_all m_ex [] [1%nat] = (m1, fs) /\ sink_writes ex_start ex_beh (mkFS m1 fs None []) [[1]; [2; 3]] = Ok k /\ fs_out k = [[2]; [3; 4]].
Proof. eexists _, _, _. repeat split; reflexivity. Qed.

(** ** Where the code does not keep the promise *)
(** A sink resumes its filters on every write (sink.cc:132), so once a filter has finished, the next write fails with an
    internal error although the filter is well-behaved. *)
Theorem C48_sink_write_after_filter_end_refuted :
  exists m1 fs, connect_all m_ex [] [3%nat] = (m1, fs) /\ suspends_for_input ex_beh /\
    (exists k, sink_writes ex_start ex_beh (mkFS m1 fs None []) [[1]] = Ok k /\ fs_out k = [[1]]) /\
    sink_writes ex_start ex_beh (mkFS m1 fs None []) [[1]; [2]] = Throw LogicError.
Proof.
  eexists _, _. split; [reflexivity|]. split; [apply C48_no_resumption_nonvacuous|]. split; [eexists; split; reflexivity|reflexivity].
Qed.

(** Closing a sink does not signal the end of data to its filters: what a filter holds back until then is never delivered. *)
Theorem C48_sink_close_loses_held_data_refuted :
  exists m1 fs k, connect_all m_ex [] [2%nat] = (m1, fs) /\ realises ex_start ex_beh 2%nat (fun x z => (if z then x else [], z)) /\
    sink_writes ex_start ex_beh (mkFS m1 fs None []) [[1]; [2]] = Ok k /\
    fst (pipe [(fun x (z : bool) => (if z then x else [], z))] [1; 2] true) = [1; 2] /\ fs_out (sink_close k) = [].
Proof. eexists _, _, _. split; [reflexivity|]. split; [apply ex_realises2|]. repeat split; reflexivity. Qed.

(** Connecting one filter unit twice: its output goes to the stream of the second connection, the unit's second instance
    never gets the output of the first. *)
Theorem C48_same_filter_twice_refuted :
  exists m fs tr, filtered_run ex_start ex_beh m_ex 0%nat 0%nat [1%nat; 1%nat] [[IAppend [5]]] = Ok (m, fs, tr) /\
    exists o, out_stream fs = Some o /\ s_data (m_str m o) = [6] /\
      fst (pipe [(fun x (z : bool) => (map inc x, z)); (fun x (z : bool) => (map inc x, z))] [5] false) = [7].
Proof. eexists _, _, _. split; [reflexivity|]. eexists. repeat split; reflexivity. Qed.

(** Closed and used again, with the filter that adds one. *)
Example C48_reused_nonvacuous :
  let '(m1, fs) := connect_all m_ex [] [2%nat] in
  match sink_writes ex_start ex_beh (mkFS m1 fs None []) [[1]; [2]] with
  | Ok k =>
      let '(m2, fs2) := connect_all (fs_mem (sink_close k)) (fs_flt (sink_close k)) [1%nat] in
      match sink_writes ex_start ex_beh (mkFS m2 fs2 (fs_data (sink_close k)) (fs_out (sink_close k))) [[5]; [7]] with
      | Ok k2 => fs_out k2 = [[6]; [8]]
      | _ => False
      end
  | _ => False
  end.
Proof. vm_compute. reflexivity. Qed.
