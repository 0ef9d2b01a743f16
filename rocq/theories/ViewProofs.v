From Verif Require Import Base StreamModel StreamSpec StreamProofs StreamProofs2 ViewModel ViewSpec.

(** *** Unsafe iterators on an unchanging, well-formed chain *)
Definition U (ch : chain) (o : nat) : uit := mkU o (option_map c_id (walk o (ch_chunks ch))).
Definition good (ch : chain) (i : iter) : Prop := hint_ok ch (it_chunk_hint ch i).

Lemma walk_unique b cs c o : contig b cs -> In c cs -> c_in_range c o = true -> walk o cs = Some c.
Proof.
  intros H Hin Hr. apply in_split in Hin. destruct Hin as (a & s & ->).
  pose proof Hr as Hr'. apply in_range_iff in Hr'.
  pose proof (proj2 (proj1 (contig_app _ _ _) H)) as H2. cbn [contig] in H2. destruct H2 as (E & _ & _).
  rewrite (walk_skip o a (c :: s) b H) by lia. unfold walk. cbn [find]. rewrite Hr. reflexivity.
Qed.

Lemma walk_in ch o c : walk o (ch_chunks ch) = Some c -> In c (ch_chunks ch) /\ c_in_range c o = true.
Proof. intros E. apply find_some in E. exact E. Qed.

Lemma U_hint ch o : hint_ok ch (u_chunk (U ch o)).
Proof.
  unfold U, hint_ok. cbn [u_chunk]. destruct (walk o (ch_chunks ch)) as [c|] eqn:E; cbn [option_map]; [|exact I].
  apply walk_in in E. exists c. tauto.
Qed.

Lemma u_of_safe_ok ch i : wf ch -> ch_is_valid ch = true -> good ch i -> u_of_safe ch i = Ok (U ch (it_off i)).
Proof. intros W V G. unfold u_of_safe. rewrite (find_chunk_ok _ _ _ W V G). reflexivity. Qed.

Lemma deref_chunk_ok ch c : wf ch -> In c (ch_chunks ch) -> deref_chunk ch (c_id c) = Ok c.
Proof.
  intros W Hin. destruct (resolve_live ch c W Hin) as (a & s & _ & E). unfold deref_chunk. rewrite E. reflexivity.
Qed.

Lemma u_incr_U ch o n : wf ch -> ch_is_valid ch = true -> u_incr ch (U ch o) n = Ok (U ch (o + n)).
Proof.
  intros W V. destruct n as [|n]; [cbn; rewrite Nat.add_0_r; reflexivity|].
  unfold u_incr. pose proof (U_hint ch o) as HU. unfold U in *. cbn [u_off u_chunk] in *.
  destruct (walk o (ch_chunks ch)) as [c|] eqn:E; cbn [option_map] in *.
  - destruct (walk_in _ _ _ E) as [Hin Hr]. rewrite (deref_chunk_ok ch c W Hin). cbn [bind].
    destruct (Nat.ltb_spec (o + S n) (c_end c)) as [Hlt|Hge].
    + rewrite (walk_unique (base ch) (ch_chunks ch) c (o + S n) (wf_contig _ W) Hin); [reflexivity|].
      unfold c_in_range in *. lia.
    + rewrite (find_chunk_ok _ _ (Some (c_id c)) W V HU). reflexivity.
  - rewrite (find_chunk_ok _ _ None W V I). reflexivity.
Qed.

Lemma u_decr_U ch o n : wf ch -> ch_is_valid ch = true -> n <= o -> u_decr ch (U ch o) n = Ok (U ch (o - n)).
Proof.
  intros W V Hn. destruct n as [|n]; [cbn; rewrite Nat.sub_0_r; reflexivity|].
  unfold u_decr. pose proof (U_hint ch o) as HU. unfold U in *. cbn [u_off u_chunk] in *.
  destruct (Nat.ltb_spec o (S n)); [lia|].
  destruct (walk o (ch_chunks ch)) as [c|] eqn:E; cbn [option_map] in *.
  - destruct (walk_in _ _ _ E) as [Hin Hr]. rewrite (deref_chunk_ok ch c W Hin). cbn [bind].
    destruct (Nat.ltb_spec (c_off c) (o - S n)) as [Hlt|Hge].
    + rewrite (walk_unique (base ch) (ch_chunks ch) c (o - S n) (wf_contig _ W) Hin); [reflexivity|].
      unfold c_in_range in *. lia.
    + rewrite (find_chunk_ok _ _ (Some (c_id c)) W V HU). reflexivity.
  - rewrite (find_chunk_ok _ _ None W V I). reflexivity.
Qed.

Definition cell_at (ch : chain) (o : nat) : option cell := nth_error (cells (ch_chunks ch)) (o - base ch).

Lemma u_deref_U ch o : wf ch -> base ch <= o ->
  u_deref ch (U ch o) = match cell_at ch o with
                        | Some (CByte b) => Ok b
                        | Some CGap => Throw MissingData
                        | None => UB
                        end.
Proof.
  intros W Hb. unfold u_deref, U, cell_at. cbn [u_off u_chunk].
  pose proof (walk_spec (base ch) (ch_chunks ch) o (wf_contig _ W) Hb) as H.
  destruct (walk o (ch_chunks ch)) as [c|] eqn:E; cbn [option_map].
  - destruct H as (Hin & Hr & ->). rewrite (deref_chunk_ok ch c W Hin). cbn [bind].
    rewrite (c_read_spec c o Hr). destruct (nth_error _ _) as [[b|]|]; reflexivity.
  - rewrite H. reflexivity.
Qed.

(** The window of the chain in terms of its chunks. *)
Definition win (ch : chain) (lo hi : nat) : list cell :=
  firstn (Nat.min hi (ch_end ch) - lo) (skipn (lo - base ch) (cells (ch_chunks ch))).

Definition okrange (ch : chain) (lo hi : nat) : Prop := base ch <= lo /\ (lo <= hi \/ ch_end ch <= hi).

Lemma cells_length ch : wf ch -> length (cells (ch_chunks ch)) = ch_end ch - base ch /\ base ch <= ch_end ch.
Proof. intros W. rewrite (ch_end_eq _ (wf_contig _ W)). lia. Qed.

Lemma skipn_nth {A} (l : list A) k x : nth_error l k = Some x -> skipn k l = x :: skipn (S k) l.
Proof.
  revert l; induction k as [|k IH]; intros l H; destruct l as [|y l]; try discriminate; cbn in *.
  - injection H as ->. reflexivity.
  - apply IH. exact H.
Qed.

Lemma win_nil ch lo hi : Nat.min hi (ch_end ch) <= lo -> win ch lo hi = [].
Proof. intros H. unfold win. replace (Nat.min hi (ch_end ch) - lo) with 0 by lia. reflexivity. Qed.

Lemma win_cons ch lo hi : wf ch -> base ch <= lo -> lo < Nat.min hi (ch_end ch) ->
  exists c, cell_at ch lo = Some c /\ win ch lo hi = c :: win ch (S lo) hi.
Proof.
  intros W Hb Hlt. destruct (cells_length ch W) as [HL HB].
  destruct (nth_error (cells (ch_chunks ch)) (lo - base ch)) as [c|] eqn:E.
  - exists c. split; [exact E|]. unfold win.
    rewrite (skipn_nth _ _ _ E). replace (S (lo - base ch)) with (S lo - base ch) by lia.
    replace (Nat.min hi (ch_end ch) - lo) with (S (Nat.min hi (ch_end ch) - S lo)) by lia. reflexivity.
  - apply nth_error_None in E. lia.
Qed.

Lemma win_length ch lo hi : wf ch -> base ch <= lo -> length (win ch lo hi) = Nat.min hi (ch_end ch) - lo.
Proof.
  intros W Hb. destruct (cells_length ch W) as [HL HB]. unfold win. rewrite firstn_length, skipn_length. lia.
Qed.

Lemma win_nth ch lo hi k : wf ch -> base ch <= lo -> k < Nat.min hi (ch_end ch) - lo ->
  nth_error (win ch lo hi) k = cell_at ch (lo + k).
Proof.
  intros W Hb Hk. unfold win, cell_at. rewrite nth_error_firstn_lt by lia. rewrite nth_error_skipn. f_equal. lia.
Qed.

Lemma u_eq_ok ch lo (ue : uit) : okrange ch lo (u_off ue) ->
  u_eq ch (U ch lo) ue = (Nat.min (u_off ue) (ch_end ch) <=? lo).
Proof. intros [Hb H]. unfold u_eq, U. cbn [u_off]. lia. Qed.

(** Case analysis of a loop head: at the end of the window, or at a cell of it. *)
Lemma loop_head ch lo ue : wf ch -> okrange ch lo (u_off ue) ->
  (u_eq ch (U ch lo) ue = true /\ win ch lo (u_off ue) = [] /\ Nat.min (u_off ue) (ch_end ch) <= lo) \/
  (u_eq ch (U ch lo) ue = false /\ lo < ch_end ch /\ okrange ch (S lo) (u_off ue) /\
   exists c, win ch lo (u_off ue) = c :: win ch (S lo) (u_off ue) /\ cell_at ch lo = Some c /\
     u_deref ch (U ch lo) = match c with CByte b => Ok b | CGap => Throw MissingData end).
Proof.
  intros W R. rewrite (u_eq_ok _ _ _ R). destruct R as [Hb R].
  destruct (Nat.leb_spec (Nat.min (u_off ue) (ch_end ch)) lo) as [H|H].
  - left. split; [reflexivity|]. split; [apply win_nil; exact H|exact H].
  - right. split; [reflexivity|]. split; [lia|]. split; [split; lia|].
    destruct (win_cons ch lo (u_off ue) W Hb H) as (c & E & Hw). exists c. split; [exact Hw|]. split; [exact E|].
    rewrite (u_deref_U _ _ W Hb), E. reflexivity.
Qed.

(** *** Forward search *)
Lemma match_loop_ok ch ue y : forall lo, wf ch -> ch_is_valid ch = true -> okrange ch lo (u_off ue) -> y <> [] ->
  match_loop ch ue (U ch lo) y = cmp_cells (win ch lo (u_off ue)) y.
Proof.
  induction y as [|c y IH]; intros lo W V R Hy; [congruence|]. cbn [match_loop cmp_cells].
  destruct (loop_head ch lo ue W R) as [(-> & -> & _)|(-> & _ & R' & d & -> & _ & ->)]; [reflexivity|].
  destruct d as [b|]; [|reflexivity]. cbn [bind cmp_cells].
  rewrite (u_incr_U _ _ _ W V). cbn [bind]. rewrite Nat.add_1_r.
  destruct (Z.eqb b c); [|reflexivity].
  destruct y as [|d y]; [destruct (win ch (S lo) (u_off ue)); reflexivity|].
  apply IH; auto; discriminate.
Qed.

Lemma find_fwd_ok ch ue first y : forall fuel lo, wf ch -> ch_is_valid ch = true -> okrange ch lo (u_off ue) ->
  ch_end ch - lo < fuel ->
  find_fwd_loop fuel ch ue first (first :: y) (U ch lo) =
  rmap (fun r => (fst r, U ch (snd r))) (search_cells (win ch lo (u_off ue)) (first :: y) lo).
Proof.
  induction fuel as [|f IH]; intros lo W V R Hf; [lia|]. cbn [find_fwd_loop].
  destruct (loop_head ch lo ue W R) as [(-> & -> & _)|(-> & Hlt & R' & d & Ew & _ & ->)]; [reflexivity|].
  destruct d as [b|]; cbn [bind].
  2:{ rewrite Ew. reflexivity. }
  destruct (Z.eqb b first) eqn:Eb.
  - rewrite (match_loop_ok ch ue (first :: y) lo W V R) by discriminate.
    rewrite Ew. cbn [search_cells].
    destruct (cmp_cells (CByte b :: win ch (S lo) (u_off ue)) (first :: y)) as [[| |]|e|]; cbn [bind rmap fst snd]; try reflexivity.
    rewrite (u_incr_U _ _ _ W V). cbn [bind]. rewrite Nat.add_1_r. apply IH; auto. lia.
  - rewrite Ew. cbn [search_cells cmp_cells]. rewrite Eb. cbn [bind].
    rewrite (u_incr_U _ _ _ W V). cbn [bind]. rewrite Nat.add_1_r. apply IH; auto. lia.
Qed.

(** *** Unsafe begin and end of a view *)
Definition vhi (ch : chain) (v : view) : nat := match v_end_off v with Some e => e | None => ch_end ch end.
Definition vgood (ch : chain) (v : view) : Prop :=
  good ch (v_begin v) /\ match v_end v with Some e => good ch e | None => True end.

Lemma ubegin_ok ch v : wf ch -> ch_is_valid ch = true -> vgood ch v -> v_ubegin ch v = Ok (U ch (v_off v)).
Proof. intros W V [G _]. apply u_of_safe_ok; assumption. Qed.

Lemma uend_ok ch v : wf ch -> ch_is_valid ch = true -> vgood ch v ->
  exists ue, v_uend ch v = Ok ue /\ u_off ue = vhi ch v /\ (v_end v = None -> ue = mkU (ch_end ch) (option_map c_id (ch_tail ch))) /\
    (v_end v <> None -> ue = U ch (vhi ch v)).
Proof.
  intros W V [_ G]. unfold v_uend, vhi, v_end_off. destruct (v_end v) as [e|]; cbn [option_map].
  - rewrite (u_of_safe_ok _ _ W V G). eexists. split; [reflexivity|]. split; [reflexivity|]. split; [discriminate|reflexivity].
  - rewrite V. cbn [negb]. eexists. split; [reflexivity|]. split; [reflexivity|]. split; [reflexivity|congruence].
Qed.

Lemma ensure_ok ch v : ch_is_valid ch = true -> ch_hoff ch <= v_off v -> v_ensure_valid ch v = Ok tt.
Proof.
  intros V H. unfold v_ensure_valid. rewrite V. cbn [negb]. destruct (Nat.ltb_spec (v_off v) (ch_hoff ch)); [lia|reflexivity].
Qed.

Definition vrange (ch : chain) (v : view) : Prop := ch_hoff ch <= v_off v /\ (v_off v <= vhi ch v \/ v_end v = None).

Lemma vrange_ok ch v : wf ch -> vrange ch v -> okrange ch (v_off v) (vhi ch v).
Proof.
  intros W [H1 H2]. destruct (avail ch W) as [_ Hb]. split; [lia|].
  destruct H2 as [H2|H2]; [left; exact H2|right]. unfold vhi, v_end_off. rewrite H2. cbn. lia.
Qed.

Lemma v_find_ok ch v needle n lo : wf ch -> ch_is_valid ch = true -> vgood ch v -> vrange ch v ->
  match n with None => lo = v_off v | Some i => good ch i /\ lo = it_off i /\ v_off v <= lo /\ (lo <= vhi ch v \/ v_end v = None) end ->
  v_find ch v needle n = search_cells (win ch lo (vhi ch v)) needle lo.
Proof.
  intros W V G R Hn. unfold v_find. rewrite (ensure_ok ch v V (proj1 R)). cbn [bind].
  assert (Hi : (match n with None => v_ubegin ch v | Some n => u_of_safe ch n end) = Ok (U ch lo) /\ okrange ch lo (vhi ch v)).
  { destruct n as [i|].
    - destruct Hn as (Gi & -> & H1 & H2). split; [apply u_of_safe_ok; assumption|].
      destruct (vrange_ok ch v W R) as [H3 H4]. split; [lia|].
      destruct H2 as [H2|H2]; [left; exact H2|right]. unfold vhi, v_end_off. rewrite H2. cbn. lia.
    - subst lo. split; [apply ubegin_ok; assumption|apply vrange_ok; assumption]. }
  destruct Hi as [-> R']. cbn [bind]. unfold find_forward.
  destruct (uend_ok ch v W V G) as (ue & Eu & Ho & _).
  destruct needle as [|c y].
  - cbn [bind fst snd u_off U]. destruct (win ch lo (vhi ch v)); reflexivity.
  - rewrite Eu. cbn [bind]. rewrite <- Ho in *. rewrite (find_fwd_ok ch ue c y _ lo W V R') by (cbn [u_off U]; lia).
    destruct (search_cells _ _ _) as [[b k]|e|]; reflexivity.
Qed.

(** *** Declarative reading of the search *)
Lemma cmp_cells_bytes bs : forall needle,
  match cmp_cells (map CByte bs) needle with
  | Ok MFull => prefix needle bs
  | Ok MEnd => exists c, c <> [] /\ needle = bs ++ c
  | Ok MNo => ~ prefix needle bs /\ (forall c, needle <> bs ++ c)
  | _ => False
  end.
Proof.
  induction bs as [|b bs IH]; intros needle; destruct needle as [|c y]; cbn [map cmp_cells].
  - exists []. reflexivity.
  - exists (c :: y). split; [discriminate|reflexivity].
  - exists (b :: bs). reflexivity.
  - destruct (Z.eqb_spec b c) as [->|Hne].
    + specialize (IH y). destruct (cmp_cells (map CByte bs) y) as [[| |]|e|]; try contradiction.
      * destruct IH as [d ->]. exists d. reflexivity.
      * destruct IH as (d & Hd & ->). exists d. auto.
      * destruct IH as [H1 H2]. split.
        -- intros [d E]. injection E as E. apply H1. exists d. exact E.
        -- intros d E. injection E as E. apply (H2 d). exact E.
    + split.
      * intros [d E]. injection E as E1 E2. congruence.
      * intros d E. injection E as E1 E2. congruence.
Qed.

Lemma occurs_0 needle bs : occurs needle bs 0 <-> prefix needle bs.
Proof.
  split.
  - intros (a & c & -> & Ha). destruct a; [|discriminate]. exists c. reflexivity.
  - intros [c ->]. exists [], c. auto.
Qed.
Lemma occurs_S needle b bs k : occurs needle (b :: bs) (S k) <-> occurs needle bs k.
Proof.
  split.
  - intros (a & c & E & Ha). destruct a as [|x a]; [discriminate|]. injection E as -> ->. injection Ha as <-. exists a, c. auto.
  - intros (a & c & -> & <-). exists (b :: a), c. auto.
Qed.
Lemma partial_0 needle bs : partial_at needle bs 0 <-> exists c, c <> [] /\ needle = bs ++ c.
Proof.
  split.
  - intros (a & m & c & -> & Ha & -> & Hc). destruct a; [|discriminate]. exists c. auto.
  - intros (c & Hc & ->). exists [], bs, c. auto.
Qed.
Lemma partial_S needle b bs k : partial_at needle (b :: bs) (S k) <-> partial_at needle bs k.
Proof.
  split.
  - intros (a & m & c & E & Ha & -> & Hc). destruct a as [|x a]; [discriminate|]. injection E as -> ->. injection Ha as <-. exists a, m, c. auto.
  - intros (a & m & c & -> & <- & -> & Hc). exists (b :: a), m, c. auto.
Qed.

Lemma search_cells_bytes needle : forall bs lo,
  exists found k, search_cells (map CByte bs) needle lo = Ok (found, lo + k) /\
    (found = true -> occurs needle bs k) /\
    (found = false -> partial_at needle bs k) /\
    (forall k', k' < k -> ~ occurs needle bs k' /\ ~ partial_at needle bs k').
Proof.
  induction bs as [|b bs IH]; intros lo.
  - cbn [map search_cells]. pose proof (cmp_cells_bytes [] needle) as H. cbn [map] in H.
    destruct (cmp_cells [] needle) as [[| |]|e|]; try contradiction; cbn [bind].
    + exists true, 0. rewrite Nat.add_0_r. split; [reflexivity|]. split; [intros _; apply occurs_0; exact H|].
      split; [discriminate|]. intros k' Hk; lia.
    + exists false, 0. rewrite Nat.add_0_r. split; [reflexivity|]. split; [discriminate|].
      split; [intros _; apply partial_0; exact H|]. intros k' Hk; lia.
    + destruct H as [_ H]. exfalso. apply (H needle). reflexivity.
  - cbn [map search_cells]. pose proof (cmp_cells_bytes (b :: bs) needle) as H. cbn [map] in H.
    destruct (cmp_cells (CByte b :: map CByte bs) needle) as [[| |]|e|]; try contradiction; cbn [bind].
    + exists true, 0. rewrite Nat.add_0_r. split; [reflexivity|]. split; [intros _; apply occurs_0; exact H|].
      split; [discriminate|]. intros k' Hk; lia.
    + exists false, 0. rewrite Nat.add_0_r. split; [reflexivity|]. split; [discriminate|].
      split; [intros _; apply partial_0; exact H|]. intros k' Hk; lia.
    + destruct H as [H1 H2]. destruct (IH (S lo)) as (f & k & E & A & B & C). exists f, (S k).
      rewrite E. split; [f_equal; f_equal; lia|]. rewrite occurs_S, partial_S. split; [exact A|]. split; [exact B|].
      intros [|k'] Hk.
      * rewrite occurs_0, partial_0. split; [exact H1|]. intros (c & _ & E'). exact (H2 c E').
      * rewrite occurs_S, partial_S. apply C. lia.
Qed.

(** *** Comparison *)
Lemma starts_loop_ok ch ue : forall bs lo, wf ch -> ch_is_valid ch = true -> okrange ch lo (u_off ue) ->
  starts_loop ch ue (U ch lo) bs = starts_cells (win ch lo (u_off ue)) bs.
Proof.
  induction bs as [|c bs IH]; intros lo W V R; cbn [starts_loop]; [destruct (win _ _ _); reflexivity|].
  destruct (loop_head ch lo ue W R) as [(-> & -> & _)|(-> & Hlt & R' & d & -> & _ & ->)]; [reflexivity|].
  destruct d as [b|]; [|reflexivity]. cbn [bind starts_cells]. rewrite (u_incr_U _ _ _ W V). cbn [bind]. rewrite Nat.add_1_r.
  destruct (Z.eqb b c); [|reflexivity]. apply IH; auto.
Qed.

Lemma v_size_ok ch v : wf ch -> vrange ch v -> v_size ch v = length (win ch (v_off v) (vhi ch v)).
Proof.
  intros W R. destruct (vrange_ok ch v W R) as [Hb H]. rewrite (win_length _ _ _ W Hb).
  destruct R as [R1 R2]. destruct (avail ch W) as [_ HA].
  unfold v_size, vhi in *. unfold ch_end in *. destruct (ch_tail ch) as [t|] eqn:Et.
  - destruct (Nat.ltb_spec (c_end t) (v_off v)); [lia|].
    destruct (v_end_off v) as [e|]; [|lia].
    destruct (Nat.leb_spec (c_end t) e); [lia|].
    destruct (Nat.ltb_spec (v_off v) e); lia.
  - destruct (v_end_off v) as [e|]; lia.
Qed.

Lemma v_starts_with_ok ch v bs : wf ch -> ch_is_valid ch = true -> vgood ch v -> vrange ch v ->
  v_starts_with ch v bs = starts_cells (win ch (v_off v) (vhi ch v)) bs.
Proof.
  intros W V G R. unfold v_starts_with. rewrite (ensure_ok ch v V (proj1 R)), (ubegin_ok _ _ W V G). cbn [bind].
  destruct (uend_ok ch v W V G) as (ue & -> & Ho & _). cbn [bind].
  rewrite (v_size_ok ch v W R), <- Ho.
  rewrite (starts_loop_ok ch ue bs (v_off v) W V) by (rewrite Ho; apply vrange_ok; assumption).
  destruct (win ch (v_off v) (u_off ue)); [|reflexivity]. cbn [length Nat.eqb]. destruct bs; reflexivity.
Qed.

Lemma walk_some_in_range ch lo : wf ch -> base ch <= lo -> lo < ch_end ch -> exists c, walk lo (ch_chunks ch) = Some c.
Proof.
  intros W Hb Hlt. pose proof (walk_spec (base ch) (ch_chunks ch) lo (wf_contig _ W) Hb) as H.
  destruct (walk lo (ch_chunks ch)) as [c|]; [eauto|]. apply nth_error_None in H. destruct (cells_length ch W). lia.
Qed.

Lemma eq_bytes_loop_ok ch ue : forall fuel lo j, wf ch -> ch_is_valid ch = true -> okrange ch lo (u_off ue) ->
  ch_end ch - lo < fuel -> length (win ch lo (u_off ue)) = length j ->
  eq_bytes_loop fuel ch ue (U ch lo) j = eq_cells (win ch lo (u_off ue)) j.
Proof.
  induction fuel as [|f IH]; intros lo j W V R Hf Hl; [lia|]. cbn [eq_bytes_loop].
  destruct (loop_head ch lo ue W R) as [(-> & E & _)|(-> & Hlt & R' & d & E & _ & ->)].
  - rewrite E in *. destruct j; [reflexivity|discriminate].
  - rewrite E in *. destruct (walk_some_in_range ch lo W (proj1 R) Hlt) as [c Ec].
    unfold U at 1. cbn [u_chunk]. rewrite Ec. cbn [option_map].
    destruct j as [|x j]; [discriminate|]. cbn [eq_cells].
    destruct d as [b|]; [|reflexivity]. cbn [bind]. rewrite (u_incr_U _ _ _ W V). cbn [bind]. rewrite Nat.add_1_r.
    destruct (Z.eqb b x); [|reflexivity]. apply IH; auto. lia.
Qed.

Lemma eq_cells_len w bs : length w <> length bs -> (forall x, In x w -> x <> CGap) -> eq_cells w bs = Ok false.
Proof.
  revert bs; induction w as [|c w IH]; intros bs Hl Hg; destruct bs as [|x bs]; cbn in *; try congruence.
  - destruct c; reflexivity.
  - destruct c as [b|]; [|exfalso; apply (Hg CGap); auto]. destruct (Z.eqb b x); [|reflexivity]. apply IH; auto.
Qed.

Lemma v_eq_bytes_ok ch v bs : wf ch -> ch_is_valid ch = true -> vgood ch v -> vrange ch v ->
  v_eq_bytes ch v bs = if length (win ch (v_off v) (vhi ch v)) =? length bs
                       then eq_cells (win ch (v_off v) (vhi ch v)) bs else Ok false.
Proof.
  intros W V G R. unfold v_eq_bytes. rewrite (v_size_ok ch v W R).
  destruct (Nat.eqb_spec (length (win ch (v_off v) (vhi ch v))) (length bs)) as [E|E]; [|reflexivity].
  cbn [negb]. rewrite (ubegin_ok _ _ W V G). cbn [bind].
  destruct (uend_ok ch v W V G) as (ue & -> & Ho & _). cbn [bind]. rewrite <- Ho in *.
  apply eq_bytes_loop_ok; auto. rewrite Ho. apply vrange_ok; assumption.
Qed.

(** *** Comparison of two views *)
Lemma cell_gap ch lo c d : wf ch -> base ch <= lo -> walk lo (ch_chunks ch) = Some c -> cell_at ch lo = Some d ->
  c_is_gap c = match d with CGap => true | CByte _ => false end.
Proof.
  intros W Hb Ec Ed. pose proof (walk_spec (base ch) (ch_chunks ch) lo (wf_contig _ W) Hb) as H. rewrite Ec in H.
  destruct H as (_ & _ & H). unfold cell_at in Ed. rewrite H in Ed. unfold c_is_gap.
  destruct (c_pay c) as [bs|n]; cbn [pcells] in Ed.
  - rewrite nth_error_map in Ed. destruct (nth_error bs _); [|discriminate]. cbn in Ed. injection Ed as <-. reflexivity.
  - apply nth_error_In, repeat_spec in Ed. subst d. reflexivity.
Qed.

Definition cell_eqb (a b : cell) : bool :=
  match a, b with CGap, CGap => true | CByte x, CByte y => Z.eqb x y | _, _ => false end.
Lemma cell_eqb_spec a b : reflect (a = b) (cell_eqb a b).
Proof.
  destruct a as [x|], b as [y|]; cbn; try (constructor; congruence).
  destruct (Z.eqb_spec x y); constructor; congruence.
Qed.
Fixpoint cells_eqb (a b : list cell) : bool :=
  match a, b with
  | [], [] => true
  | x :: a', y :: b' => cell_eqb x y && cells_eqb a' b'
  | _, _ => false
  end.
Lemma cells_eqb_spec a : forall b, reflect (a = b) (cells_eqb a b).
Proof.
  induction a as [|x a IH]; intros [|y b]; cbn; try (constructor; congruence).
  destruct (cell_eqb_spec x y) as [->|H]; cbn; [|constructor; congruence].
  destruct (IH b) as [->|H]; constructor; congruence.
Qed.

Lemma eq_view_loop_ok ch1 ch2 ue hi2 : forall fuel lo1 lo2, wf ch1 -> ch_is_valid ch1 = true -> wf ch2 -> ch_is_valid ch2 = true ->
  okrange ch1 lo1 (u_off ue) -> okrange ch2 lo2 hi2 ->
  ch_end ch1 - lo1 < fuel -> length (win ch1 lo1 (u_off ue)) = length (win ch2 lo2 hi2) ->
  eq_view_loop fuel ch1 ch2 ue (U ch1 lo1) (U ch2 lo2) = Ok (cells_eqb (win ch1 lo1 (u_off ue)) (win ch2 lo2 hi2)).
Proof.
  induction fuel as [|f IH]; intros lo1 lo2 W1 V1 W2 V2 R1 R2 Hf Hl; [lia|]. cbn [eq_view_loop].
  destruct (loop_head ch1 lo1 ue W1 R1) as [(-> & E & _)|(-> & Hlt & R1' & d & E & Ed & Hd)].
  - rewrite E in *. destruct (win ch2 lo2 hi2); [reflexivity|discriminate].
  - rewrite E in *. rewrite (win_length _ _ _ W2 (proj1 R2)) in Hl. cbn [length] in Hl.
    assert (R2' : okrange ch2 (S lo2) hi2) by (destruct R2; split; lia).
    destruct (win_cons ch2 lo2 hi2 W2 (proj1 R2)) as (d2 & Ed2 & E2); [lia|].
    destruct (walk_some_in_range ch1 lo1 W1 (proj1 R1) Hlt) as [c1 Ec1].
    destruct (walk_some_in_range ch2 lo2 W2 (proj1 R2)) as [c2 Ec2]; [lia|].
    assert (Hd2 : u_deref ch2 (U ch2 lo2) = match d2 with CByte b => Ok b | CGap => Throw MissingData end)
      by (rewrite (u_deref_U _ _ W2 (proj1 R2)), Ed2; destruct d2; reflexivity).
    rewrite E2. rewrite Hd, Hd2, !(u_incr_U) by assumption.
    unfold U at 1 2. cbn [u_chunk]. rewrite Ec1, Ec2. cbn [option_map].
    rewrite (deref_chunk_ok ch1 c1 W1 (proj1 (walk_in _ _ _ Ec1))), (deref_chunk_ok ch2 c2 W2 (proj1 (walk_in _ _ _ Ec2))).
    cbn [bind]. rewrite (cell_gap ch1 lo1 c1 d W1 (proj1 R1) Ec1 Ed), (cell_gap ch2 lo2 c2 d2 W2 (proj1 R2) Ec2 Ed2).
    cbn [cells_eqb]. rewrite !Nat.add_1_r.
    assert (Hrec : eq_view_loop f ch1 ch2 ue (U ch1 (S lo1)) (U ch2 (S lo2)) =
                   Ok (cells_eqb (win ch1 (S lo1) (u_off ue)) (win ch2 (S lo2) hi2))).
    { apply IH; auto; [lia|]. rewrite !win_length by (auto; apply R1' || apply R2').
      rewrite win_length in Hl by (auto; apply R1'). lia. }
    destruct d as [b1|], d2 as [b2|]; cbn [Bool.eqb negb bind cell_eqb andb]; try reflexivity; [|exact Hrec].
    destruct (Z.eqb b1 b2); cbn [negb andb]; [exact Hrec|reflexivity].
Qed.

Lemma v_eq_view_ok ch1 v1 ch2 v2 : wf ch1 -> ch_is_valid ch1 = true -> vgood ch1 v1 -> vrange ch1 v1 ->
  wf ch2 -> ch_is_valid ch2 = true -> vgood ch2 v2 -> vrange ch2 v2 ->
  v_eq_view ch1 v1 ch2 v2 = Ok (cells_eqb (win ch1 (v_off v1) (vhi ch1 v1)) (win ch2 (v_off v2) (vhi ch2 v2))).
Proof.
  intros W1 V1 G1 R1 W2 V2 G2 R2. unfold v_eq_view. rewrite (v_size_ok _ _ W1 R1), (v_size_ok _ _ W2 R2).
  destruct (Nat.eqb_spec (length (win ch1 (v_off v1) (vhi ch1 v1))) (length (win ch2 (v_off v2) (vhi ch2 v2)))) as [E|E]; cbn [negb].
  - rewrite (ubegin_ok _ _ W1 V1 G1), (ubegin_ok _ _ W2 V2 G2). cbn [bind].
    destruct (uend_ok ch1 v1 W1 V1 G1) as (ue & -> & Ho & _). cbn [bind]. rewrite <- Ho in *.
    apply eq_view_loop_ok; auto.
    + rewrite Ho. apply vrange_ok; assumption.
    + apply vrange_ok; assumption.
  - destruct (cells_eqb_spec (win ch1 (v_off v1) (vhi ch1 v1)) (win ch2 (v_off v2) (vhi ch2 v2))) as [E'|E']; [|reflexivity].
    rewrite E' in E. congruence.
Qed.
