(** Writes only: segments in any order, and writes without sequence numbers. *)
From Coq Require Import Permutation.
From Verif Require Import Base BytesModel SinkModel SinkSpec SinkProofs SinkProofs2 SinkProofs3 SinkProofs4 SinkProofs5 SinkProofs6.
Open Scope Z_scope.

Lemma delivered_observed s : delivered (k_log s) = flat_map byte_of (observed s).
Proof.
  unfold observed. induction (k_log s) as [|e l IH]; [reflexivity|]. cbn [delivered flat_map] in *. rewrite flat_map_app, <- IH. f_equal.
  destruct e; cbn [payload obs_of]; try reflexivity. symmetry. apply flat_obs_data.
Qed.

Definition no_gaps (m : seqmap) : Prop := forall x e, m x <> Some (Missing e).
Lemma advance_bytes m p os q g : no_gaps m -> advance m p os q g ->
  g = false /\ q = p + blen (flat_map byte_of os) /\ (forall x, p <= x < q -> m x <> None) /\ m q = None /\ reads m p (flat_map byte_of os).
Proof.
  intros NG A. induction A as [p E|p e E|p b os q g E A IH].
  - split; [reflexivity|]. cbn [flat_map]. change (blen []) with 0. split; [lia|]. split; [intros; lia|]. split; [exact E|].
    intros [|k] x; discriminate.
  - exfalso. eapply NG; eauto.
  - destruct IH as (I1 & I2 & I3 & I4 & I5). split; [exact I1|]. cbn [flat_map byte_of app]. unfold blen in *. cbn [length].
    split; [lia|]. split; [|split; [exact I4|]].
    + intros x X. destruct (Z.eq_dec x p) as [->|NE]; [congruence|apply I3; lia].
    + intros [|k] x; cbn [nth_error].
      * intros [= <-]. rewrite Z.add_0_r. exact E.
      * intros K. specialize (I5 k x K). rewrite <- I5. f_equal. lia.
Qed.
Lemma no_gaps_data a d : no_gaps (data_cells a d).
Proof. intros x e. unfold data_cells. destruct (_ && _); [|discriminate]. destruct (nth_error _ _); discriminate. Qed.
Lemma no_gaps_first m n : no_gaps m -> no_gaps n -> no_gaps (first_wins m n).
Proof. intros A B x e. unfold first_wins. destruct (m x) eqn:E; [rewrite <- E; apply A|apply B]. Qed.
Lemma known_snoc segs g : known (segs ++ [g]) = first_wins (known segs) (data_cells (fst g) (snd g)).
Proof. unfold known. rewrite fold_left_app. reflexivity. Qed.
Lemma known_no_gaps segs : no_gaps (known segs).
Proof.
  induction segs as [|g segs IH] using rev_ind; [intros x e; discriminate|]. rewrite known_snoc. apply no_gaps_first; [exact IH|apply no_gaps_data].
Qed.
Lemma reads_app m p a b : reads m p a -> reads m (p + blen a) b -> reads m p (a ++ b).
Proof.
  intros A B k x K. destruct (Nat.lt_ge_cases k (length a)) as [L|L].
  - apply A. rewrite nth_error_app1 in K by exact L. exact K.
  - rewrite nth_error_app2 in K by exact L. specialize (B _ _ K). rewrite <- B. f_equal. unfold blen. lia.
Qed.
Lemma reads_first m n p bs : reads m p bs -> reads (first_wins m n) p bs.
Proof. intros R k x K. unfold first_wins. rewrite (R k x K). reflexivity. Qed.
Lemma front_unique m a b : front m a -> front m b -> a = b.
Proof.
  intros (A0 & A1 & A2) (B0 & B1 & B2). destruct (Z.lt_trichotomy a b) as [L|[L|L]]; [|exact L|].
  - exfalso. apply (B1 a); [lia|exact A2].
  - exfalso. apply (A1 b); [lia|exact B2].
Qed.

(** The state of a run of writes. *)
Record Wr (auto : bool) (i : Z) (segs : list seg) (s : sink) : Prop := mkWr {
  w_inv : exists r stale live, Inv auto i s r stale live /\ r_map r = known segs /\ r_gap r = false /\ front (known segs) (r_pos r)
          /\ blen (delivered (k_log s)) = r_pos r /\ (forall a b, In (a, b) (r_ext r) -> exists d, In (a, d) segs /\ b = a + blen d);
  w_reads : reads (known segs) 0 (delivered (k_log s)) }.
Lemma wr_fresh auto i units : Wr auto i [] (fresh units auto i).
Proof.
  constructor.
  - exists rinit, [], []. split; [apply inv_fresh|]. split; [reflexivity|]. split; [reflexivity|]. split; [|split; [reflexivity|intros ? ? []]].
    split; [cbn; lia|]. split; [intros p P; cbn [rinit r_pos] in P; lia|reflexivity].
  - intros [|k] x; discriminate.
Qed.
Lemma wr_facts auto i segs s : Wr auto i segs s -> exists n, front (known segs) n /\ reads (known segs) 0 (delivered (k_log s)) /\
  blen (delivered (k_log s)) = n /\ sink_size s = u64 n /\ sequence_number s = u64 (i + n) /\ k_cur s = n /\ k_init s = i /\ n < 2 ^ 64.
Proof.
  intros [(r & st & lv & V & M & G & F & B & X) R]. exists (r_pos r). pose proof V as [VA VI VC VP VL VT VZ VK VW VS VLK VWI VN VOFF].
  repeat (split; [assumption|]). split.
  { unfold sink_size. rewrite VZ. rewrite <- delivered_observed. rewrite <- B. reflexivity. }
  split; [unfold sequence_number; rewrite VI, VC; reflexivity|]. split; [exact VC|]. split; [exact VI|lia].
Qed.
Lemma wr_step auto i segs a d s : Wr auto i segs s -> 0 <= a -> d <> [] -> a + blen d < 2 ^ 64 ->
  (auto = true -> forall n, front (known segs) n -> n <= a \/ a + blen d <= n) ->
  match sstep (wr i (a, d)) s with
  | SOk _ s' => Wr auto i (segs ++ [(a, d)]) s'
  | SThrow e s' => (e = ParseError /\ exists u, In u (k_units s') /\ u_done u = true /\ u_skip u = false)
                   \/ (e = OutOfRange /\ auto = true /\ exists n, front (known segs) n /\ a + blen d <= n)
  | SCrash => False
  end.
Proof.
  intros [(r & st & lv & V & M & G & F & B & X) R] A0 DN LB PR.
  assert (AD : admissible auto r (RWrite a d)).
  { cbn [admissible]. repeat (split; [assumption|]). destruct auto.
    - destruct (PR eq_refl (r_pos r) F) as [L|L]; [left; exact L|right; left; split; [exact L|exact G]].
    - right; right. split; [reflexivity|]. intros p P. rewrite M. apply F. lia. }
  pose proof (step_good _ _ _ _ _ _ _ V AD) as ST. change (call i (RWrite a d)) with (wr i (a, d)) in ST.
  destruct (sstep (wr i (a, d)) s) as [u s'|e s'|]; cbn [good] in ST; [|destruct ST as [ST | (-> & ? & OL)]; [left; exact ST|right]|exact ST].
  - destruct ST as (r' & os' & st' & lv' & S1 & V' & OB).
    inversion S1 as [os0 q g ADV E1 E2|RG NS E1 E2]; subst; [|congruence]. cbn [target] in ADV. rewrite prov_write in *. cbn [fst snd] in *.
    rewrite M in ADV.
    assert (NG : no_gaps (first_wins (known segs) (data_cells a d))) by (apply no_gaps_first; [apply known_no_gaps|apply no_gaps_data]).
    destruct (advance_bytes _ _ _ _ _ NG ADV) as (-> & Q & B1 & B2 & B3).
    assert (KS : known (segs ++ [(a, d)]) = first_wins (known segs) (data_cells a d)) by (rewrite known_snoc; reflexivity).
    assert (DE : delivered (k_log s') = delivered (k_log s) ++ flat_map byte_of os').
    { rewrite !delivered_observed, OB, flat_map_app. reflexivity. }
    constructor.
    + exists (mkR (first_wins (r_map r) (data_cells a d)) ((a, a + blen d) :: r_ext r) q false), st', lv'.
      split; [exact V'|]. cbn [r_map r_gap r_pos]. rewrite KS, M. split; [reflexivity|]. split; [reflexivity|]. split.
      * destruct F as (F0 & F1 & F2). assert (r_pos r <= q) by (unfold blen in Q; lia). split; [lia|]. split; [|exact B2].
        intros p P. destruct (Z.lt_ge_cases p (r_pos r)) as [L|L]; [|apply B1; lia].
        unfold first_wins. specialize (F1 p ltac:(lia)). destruct (known segs p); [discriminate|congruence].
      * split; [rewrite DE, blen_cat, B; symmetry; exact Q|]. cbn [r_ext]. intros x y [[= <- <-] | IN].
        -- exists d. split; [apply in_or_app; right; left; reflexivity|reflexivity].
        -- destruct (X _ _ IN) as (d' & I1 & I2). exists d'. split; [apply in_or_app; left; exact I1|exact I2].
    + rewrite DE, KS. apply reads_app; [apply reads_first; exact R|]. rewrite B, Z.add_0_l. exact B3.
  - split; [reflexivity|]. split; [assumption|]. exists (r_pos r). split; [exact F|exact OL].
Qed.

Definition seg_result (auto : bool) (i : Z) (segs : list seg) (x : sres unit) : Prop :=
  match x with
  | SOk _ s => Wr auto i segs s
  | SThrow e s => (e = ParseError /\ exists u, In u (k_units s) /\ u_done u = true /\ u_skip u = false)
      \/ (e = OutOfRange /\ auto = true /\ exists before a d after n, segs = before ++ (a, d) :: after /\ front (known before) n /\ a + blen d <= n)
  | SCrash => False
  end.
Lemma seg_run auto i segs : forall before s, Wr auto i before s -> proper auto (before ++ segs) ->
  seg_result auto i (before ++ segs) (sruns (map (wr i) segs) s).
Proof.
  induction segs as [|[a d] segs IH]; intros before s W PR; cbn [map sruns].
  - rewrite app_nil_r. exact W.
  - destruct (PR before a d segs eq_refl) as (P1 & P2 & P3 & P4).
    pose proof (wr_step auto i before a d s W P1 P2 P3 P4) as ST.
    assert (AE : before ++ (a, d) :: segs = (before ++ [(a, d)]) ++ segs) by (rewrite <- app_assoc; reflexivity).
    match type of ST with match ?A with _ => _ end =>
      change (seg_result auto i (before ++ (a, d) :: segs) (sbind A (fun _ s' => sruns (map (wr i) segs) s'))); destruct A as [u s1|e s1|] end; cbn [sbind].
    + specialize (IH (before ++ [(a, d)]) s1 ST). rewrite <- AE in IH. apply IH. exact PR.
    + cbn [seg_result]. destruct ST as [ST | (-> & H & n & N1 & N2)]; [left; exact ST|right].
      split; [reflexivity|]. split; [exact H|]. exists before, a, d, segs, n. auto.
    + exact ST.
Qed.

(** A known position lies in some segment. *)
Lemma data_cells_in a d p : data_cells a d p <> None -> a <= p < a + blen d.
Proof. unfold data_cells. destruct ((a <=? p) && (p <? a + blen d)) eqn:E; [intros _; lia|congruence]. Qed.
Lemma data_cells_some a d p : a <= p < a + blen d -> exists b, nth_error d (Z.to_nat (p - a)) = Some b /\ data_cells a d p = Some (Byte b).
Proof.
  intros H. unfold data_cells. replace ((a <=? p) && (p <? a + blen d)) with true by lia.
  destruct (nth_error d (Z.to_nat (p - a))) as [b|] eqn:E; [exists b; auto|]. apply nth_error_None in E. unfold blen in H. lia.
Qed.
Lemma known_in segs p : known segs p <> None -> exists a d, In (a, d) segs /\ a <= p < a + blen d.
Proof.
  induction segs as [|[a d] segs IH] using rev_ind; [intros H; exfalso; apply H; reflexivity|].
  rewrite known_snoc. unfold first_wins. destruct (known segs p) eqn:E.
  - intros _. destruct (IH ltac:(discriminate)) as (a' & d' & I1 & I2). exists a', d'. split; [apply in_or_app; left; exact I1|exact I2].
  - cbn [fst snd]. intros H. exists a, d. split; [apply in_or_app; right; left; reflexivity|apply data_cells_in; exact H].
Qed.
Lemma known_of segs a d p : In (a, d) segs -> a <= p < a + blen d -> known segs p <> None.
Proof.
  induction segs as [|g segs IH] using rev_ind; [intros []|]. intros H P. rewrite known_snoc. unfold first_wins.
  apply in_app_or in H. destruct H as [H | [-> | []]].
  - specialize (IH H P). destruct (known segs p); [discriminate|congruence].
  - destruct (known segs p); [discriminate|]. cbn [fst snd]. destruct (data_cells_some a d p P) as (b & _ & ->). discriminate.
Qed.
(** Disjoint segments: the value of a position is that of the segment it lies in. *)
Lemma known_disjoint segs a d p b : disjoint segs -> In (a, d) segs -> a <= p < a + blen d ->
  nth_error d (Z.to_nat (p - a)) = Some b -> known segs p = Some (Byte b).
Proof.
  induction segs as [|g segs IH] using rev_ind; [intros _ []|]. intros DJ H P N. rewrite known_snoc. unfold first_wins.
  assert (DJ' : disjoint segs).
  { intros x a1 d1 y a2 d2 z E. apply (DJ x a1 d1 y a2 d2 (z ++ [g])). rewrite E. rewrite <- !app_assoc. cbn [app]. rewrite <- !app_assoc. reflexivity. }
  apply in_app_or in H. destruct H as [H | [-> | []]].
  - rewrite (IH DJ' H P N). reflexivity.
  - destruct (known segs p) eqn:E.
    + exfalso. destruct (known_in segs p ltac:(congruence)) as (a' & d' & I1 & I2).
      apply in_split in I1. destruct I1 as (x & y & ->).
      specialize (DJ x a' d' y a d []). rewrite <- app_assoc in DJ. cbn [app] in DJ. specialize (DJ eq_refl). lia.
    + cbn [fst snd]. unfold data_cells. replace ((a <=? p) && (p <? a + blen d)) with true by lia. rewrite N. reflexivity.
Qed.
Lemma disjoint_proper segs auto : disjoint segs -> (forall a d, In (a, d) segs -> 0 <= a /\ d <> [] /\ a + blen d < 2 ^ 64) -> proper auto segs.
Proof.
  intros DJ OK before a d after E. destruct (OK a d) as (O1 & O2 & O3); [rewrite E; apply in_or_app; right; left; reflexivity|].
  repeat (split; [assumption|]). intros _ n (F0 & F1 & F2). destruct (Z.le_gt_cases n a) as [L|L]; [left; exact L|]. exfalso.
  specialize (F1 a ltac:(lia)). destruct (known_in _ _ F1) as (a' & d' & I1 & I2). apply in_split in I1. destruct I1 as (x & y & ->).
  specialize (DJ x a' d' y a d after). rewrite E, <- app_assoc in DJ. cbn [app] in DJ. specialize (DJ eq_refl).
  assert (0 < blen d) by (destruct d; [congruence|unfold blen; cbn [length]; lia]). lia.
Qed.
Lemma disjoint_not_old segs before a d after n : disjoint segs -> segs = before ++ (a, d) :: after -> 0 <= a -> d <> [] ->
  front (known before) n -> a + blen d <= n -> False.
Proof.
  intros DJ E A0 DN (F0 & F1 & F2) L. assert (0 < blen d) by (destruct d; [congruence|unfold blen; cbn [length]; lia]).
  specialize (F1 a ltac:(lia)). destruct (known_in _ _ F1) as (a' & d' & I1 & I2). apply in_split in I1. destruct I1 as (x & y & ->).
  specialize (DJ x a' d' y a d after). rewrite E, <- app_assoc in DJ. cbn [app] in DJ. specialize (DJ eq_refl). lia.
Qed.

(** ** What units got *)
Lemma sruns_eff ops : forall s, Forall (fun o => data_op o = true) ops -> effr s (sruns ops s).
Proof.
  induction ops as [|o ops IH]; intros s F; cbn [sruns]; [exists []; apply eff_refl|]. inversion F; subst.
  apply effr_bind; [apply step_eff; assumption|]. intros u s1 _. apply IH. assumption.
Qed.
Lemma sruns_got ops units auto i s : Forall (fun o => data_op o = true) ops -> sruns ops (fresh units auto i) = SOk tt s -> got units s.
Proof.
  intros F E. pose proof (sruns_eff ops (fresh units auto i) F) as H. rewrite E in H. cbn [effr] in H. destruct H as (evs & [H1 H2 _ _ _ _]).
  cbn [fresh k_log k_units app] in H1, H2. apply passed_given in H2. unfold got. rewrite H1, <- concat_pieces.
  clear - H2. induction H2 as [|u u' us us' G F IH]; constructor; [|exact IH]. intros K. rewrite (proj1 G K), concat_app. reflexivity.
Qed.
Lemma wr_data_op i segs : Forall (fun o => data_op o = true) (map (wr i) segs).
Proof. induction segs; constructor; auto. Qed.

(** ** Tilings *)
Lemma tile_in p ds : forall a d, In (a, d) (tile p ds) -> exists x y, ds = x ++ d :: y /\ a = p + blen (concat x).
Proof.
  revert p. induction ds as [|d0 ds IH]; intros p a d; [intros []|]. cbn [tile]. intros [[= <- <-] | H].
  - exists [], ds. split; [reflexivity|]. cbn. lia.
  - destruct (IH _ _ _ H) as (x & y & -> & ->). exists (d0 :: x), y. split; [reflexivity|]. cbn [concat]. rewrite blen_cat. lia.
Qed.
Lemma tile_cover p ds : forall q, p <= q < p + blen (concat ds) -> exists a d, In (a, d) (tile p ds) /\ a <= q < a + blen d /\
  nth_error (concat ds) (Z.to_nat (q - p)) = nth_error d (Z.to_nat (q - a)).
Proof.
  revert p. induction ds as [|d0 ds IH]; intros p q H; [cbn in H; lia|]. cbn [concat] in *. rewrite blen_cat in H.
  destruct (Z.lt_ge_cases q (p + blen d0)) as [L|L].
  - exists p, d0. split; [left; reflexivity|]. split; [lia|]. apply nth_error_app1. unfold blen in *. lia.
  - destruct (IH (p + blen d0) q ltac:(lia)) as (a & d & I1 & I2 & I3). exists a, d. split; [right; exact I1|]. split; [exact I2|].
    rewrite nth_error_app2 by (unfold blen in *; lia). rewrite <- I3. f_equal. unfold blen in *. lia.
Qed.
Lemma blen_nn d : 0 <= blen d.
Proof. unfold blen. lia. Qed.
(** Two different occurrences in a permutation of a tiling do not overlap. *)
Lemma tile_pair p ds : forall x a d y, tile p ds = x ++ (a, d) :: y -> (forall a' d', In (a', d') x -> a' + blen d' <= a) /\ (forall a' d', In (a', d') y -> a + blen d <= a').
Proof.
  revert p. induction ds as [|d0 ds IH]; intros p x a d y E; [destruct x; discriminate|]. cbn [tile] in E. destruct x as [|g x]; cbn [app] in E.
  - injection E as -> -> <-. split; [intros ? ? []|]. intros a' d' H. destruct (tile_in _ _ _ _ H) as (u & v & _ & ->). pose proof (blen_nn (concat u)). lia.
  - injection E as <- E. destruct (IH _ _ _ _ _ E) as (I1 & I2). split; [|exact I2]. intros a' d' [[= <- <-] | H]; [|apply I1; exact H].
    assert (J : In (a, d) (tile (p + blen d0) ds)) by (rewrite E; apply in_or_app; right; left; reflexivity).
    destruct (tile_in _ _ _ _ J) as (u & v & _ & ->). pose proof (blen_nn (concat u)). lia.
Qed.
Lemma perm_tile_disjoint p ds segs : Forall (fun d => d <> []) ds -> Permutation (tile p ds) segs -> disjoint segs.
Proof.
  intros NE PM x a d y a' d' z ->.
  assert (I1 : In (a, d) (tile p ds)) by (eapply Permutation_in; [symmetry; exact PM|apply in_or_app; right; left; reflexivity]).
  apply in_split in I1. destruct I1 as (u & v & E). rewrite E in PM.
  assert (PM' : Permutation (u ++ v) (x ++ y ++ (a', d') :: z)) by (eapply Permutation_app_inv; exact PM).
  assert (I2 : In (a', d') (u ++ v)) by (eapply Permutation_in; [symmetry; exact PM'|apply in_or_app; right; apply in_or_app; right; left; reflexivity]).
  destruct (tile_pair _ _ _ _ _ _ E) as (T1 & T2). apply in_app_or in I2. destruct I2 as [I2|I2]; [right; exact (T1 _ _ I2)|left; exact (T2 _ _ I2)].
Qed.

(** ** Writes without sequence numbers, or with the number they would get anyway *)
Lemma known_tile_front p0 ds : 0 = p0 -> Forall (fun d => d <> []) ds -> front (known (tile p0 ds)) (blen (concat ds)).
Proof.
  intros <- NE. split; [apply blen_nn|]. split.
  - intros p P. destruct (tile_cover 0 ds p ltac:(lia)) as (a & d & I1 & I2 & _). eapply known_of; eauto.
  - destruct (known (tile 0 ds) (blen (concat ds))) eqn:E; [|reflexivity]. exfalso.
    destruct (known_in (tile 0 ds) (blen (concat ds)) ltac:(congruence)) as (a & d & I1 & I2).
    destruct (tile_in _ _ _ _ I1) as (x & y & -> & ->). rewrite concat_app, blen_cat in I2. cbn [concat] in I2. rewrite blen_cat in I2.
    pose proof (blen_nn (concat y)). lia.
Qed.
Lemma known_same segs segs' p : disjoint segs -> disjoint segs' -> (forall g, In g segs <-> In g segs') -> known segs p = known segs' p.
Proof.
  intros D1 D2 EQ. destruct (known segs p) as [c|] eqn:E.
  - destruct (known_in segs p ltac:(congruence)) as (a & d & I1 & I2). destruct (data_cells_some a d p I2) as (b & N & _).
    rewrite (known_disjoint segs a d p b D1 I1 I2 N) in E. symmetry. rewrite <- E. eapply known_disjoint; eauto. apply EQ. exact I1.
  - destruct (known segs' p) as [c|] eqn:E'; [|reflexivity]. exfalso.
    destruct (known_in segs' p ltac:(congruence)) as (a & d & I1 & I2). apply EQ in I1. exact (known_of segs a d p I1 I2 E).
Qed.
Lemma nth_ext_eq {A} (a : list A) : forall b, (forall k, nth_error a k = nth_error b k) -> a = b.
Proof.
  induction a as [|x a IH]; intros [|y b] H; [reflexivity|specialize (H 0%nat); discriminate..|].
  f_equal; [specialize (H 0%nat); cbn in H; congruence|]. apply IH. intros k. apply (H (Datatypes.S k)).
Qed.
Lemma reads_all m n bs bs' : reads m 0 bs -> reads m 0 bs' -> blen bs = n -> blen bs' = n -> bs = bs'.
Proof.
  intros R1 R2 L1 L2. apply nth_ext_eq. intros k.
  destruct (nth_error bs k) as [b|] eqn:E; destruct (nth_error bs' k) as [b'|] eqn:E'; [|..].
  - pose proof (R1 k b E) as A. pose proof (R2 k b' E') as B. congruence.
  - apply nth_error_None in E'. assert (nth_error bs k <> None) by congruence. apply nth_error_Some in H. unfold blen in *. lia.
  - apply nth_error_None in E. assert (nth_error bs' k <> None) by congruence. apply nth_error_Some in H. unfold blen in *. lia.
  - reflexivity.
Qed.

(** ** In order *)
Lemma first_wins_data m p d n : front m n -> p = n -> d <> [] -> (forall q, n <= q -> m q = None) ->
  front (first_wins m (data_cells p d)) (n + blen d) /\ (forall q, n + blen d <= q -> first_wins m (data_cells p d) q = None).
Proof.
  intros (F0 & F1 & F2) -> DN H. assert (Q : forall q, n + blen d <= q -> first_wins m (data_cells n d) q = None).
  { intros q L. unfold first_wins. rewrite H by (pose proof (blen_nn d); lia). apply data_cells_out. lia. }
  split; [|exact Q]. split; [pose proof (blen_nn d); lia|]. split; [|apply Q; lia].
  intros q L. unfold first_wins. destruct (Z.lt_ge_cases q n) as [L1|L1].
  - specialize (F1 q ltac:(lia)). destruct (m q); [discriminate|congruence].
  - rewrite H by exact L1. destruct (data_cells_some n d q ltac:(lia)) as (b & _ & ->). discriminate.
Qed.
Definition in_order_result (i : Z) (content : bytes) (x : sres unit) : Prop :=
  match x with
  | SOk _ s => delivered (k_log s) = content /\ sink_size s = u64 (blen content) /\ sequence_number s = u64 (i + blen content)
  | SThrow e s => e = ParseError /\ exists u, In u (k_units s) /\ u_done u = true /\ u_skip u = false
  | SCrash => False
  end.
Lemma in_order_run auto i gs : forall segs s, Wr auto i segs s -> (forall q, blen (delivered (k_log s)) <= q -> known segs q = None) ->
  blen (delivered (k_log s)) + blen (concat (map snd gs)) < 2 ^ 64 ->
  in_order_result i (delivered (k_log s) ++ concat (map snd gs)) (sruns (in_order i (blen (delivered (k_log s))) gs) s).
Proof.
  induction gs as [|[ex d] gs IH]; intros segs s W BEY LB.
  - cbn [map concat in_order sruns in_order_result]. rewrite app_nil_r. destruct (wr_facts _ _ _ _ W) as (n & F & R & B & Z1 & Q1 & _).
    rewrite B. auto.
  - cbn [map snd concat in_order sruns] in *. set (P := delivered (k_log s)) in *. rewrite blen_cat in LB.
    destruct d as [|b0 d0].
    { (* nothing to write *) unfold opt_wr. cbn [snd fst sstep sbind app]. change (blen []) with 0 in *. rewrite Z.add_0_r in *. apply (IH segs s W BEY). fold P. lia. }
    set (d := b0 :: d0) in *. destruct (wr_facts _ _ _ _ W) as (n & F & R & B & _ & _ & C & KI & N64). fold P in R, B.
    pose proof (blen_nn (concat (map snd gs))) as NNC. pose proof (blen_nn d) as NND.
    assert (DN : d <> []) by discriminate.
    assert (PN : 0 <= n) by (destruct F; assumption).
    assert (SAME : sstep (opt_wr i (blen P) (ex, d)) s = sstep (wr i (n, d)) s).
    { unfold opt_wr, wr. cbn [snd fst]. destruct ex; [rewrite B; reflexivity|]. unfold sstep. cbn [d]. unfold rseq_of. rewrite KI, C, rseq_aseq by lia. reflexivity. }
    pose proof (wr_step auto i segs n d s W PN DN ltac:(lia)) as ST.
    assert (H : auto = true -> forall m, front (known segs) m -> m <= n \/ n + blen d <= m).
    { intros _ m FM. left. rewrite (front_unique _ _ _ FM F). lia. }
    specialize (ST H). rewrite <- SAME in ST. clear SAME H. fold d.
    match type of ST with match ?A with _ => _ end =>
      change (in_order_result i (P ++ d ++ concat (map snd gs)) (sbind A (fun _ s' => sruns (in_order i (blen P + blen d) gs) s'))); destruct A as [u s1|e s1|] end; cbn [sbind].
    + destruct (wr_facts _ _ _ _ ST) as (n1 & F1 & R1 & B1 & _). rewrite known_snoc in F1, R1. cbn [fst snd] in F1, R1.
      rewrite B in BEY. destruct (first_wins_data (known segs) n d n F eq_refl DN BEY) as (F2 & BEY2).
      pose proof (front_unique _ _ _ F1 F2) as ->.
      assert (DE : delivered (k_log s1) = P ++ d).
      { apply (reads_all (first_wins (known segs) (data_cells n d)) (n + blen d)); [exact R1| |exact B1|rewrite blen_cat; lia].
        apply reads_app; [apply reads_first; exact R|]. rewrite B, Z.add_0_l. intros k x K. unfold first_wins. rewrite BEY by lia.
        apply data_cells_nth. exact K. }
      specialize (IH (segs ++ [(n, d)]) s1 ST). rewrite DE in IH. rewrite known_snoc in IH. cbn [fst snd] in IH.
      rewrite blen_cat in IH. rewrite app_assoc. apply IH.
      * rewrite B. exact BEY2.
      * lia.
    + cbn [in_order_result]. destruct ST as [ST | (_ & _ & m & FM & L)]; [exact ST|]. exfalso. rewrite (front_unique _ _ _ FM F) in L.
      unfold d, blen in L. cbn [length] in L. lia.
    + exact ST.
Qed.
