From Verif Require Import Base StreamModel StreamSpec StreamProofs StreamProofs2 ViewModel ViewSpec
  ViewProofs ViewProofs2 ViewProofs3 ViewProofs4 WaitModel WaitSpec WaitProofs WaitProofs2 WaitProofs3.

(** *** Cells as bytes *)
Lemma as_bytes_map bs : as_bytes (map CByte bs) = Some bs.
Proof. induction bs as [|b bs IH]; [reflexivity|]. cbn. rewrite IH. reflexivity. Qed.
Lemma as_bytes_some w : forall bs, as_bytes w = Some bs -> w = map CByte bs.
Proof.
  induction w as [|[b|] w IH]; intros bs; cbn [as_bytes]; [intros [= <-]; reflexivity| |discriminate].
  destruct (as_bytes w) as [r|]; [|discriminate]. intros [= <-]. cbn. rewrite (IH r eq_refl). reflexivity.
Qed.
Lemma as_bytes_gap w : In CGap w -> as_bytes w = None.
Proof. induction w as [|[b|] w IH]; intros H; [destruct H| |reflexivity]. destruct H as [H|H]; [discriminate|]. cbn. rewrite IH; auto. Qed.
Lemma as_bytes_none w : as_bytes w = None -> In CGap w.
Proof. induction w as [|[b|] w IH]; cbn; [discriminate| |auto]. destruct (as_bytes w); [discriminate|]. auto. Qed.
Lemma as_bytes_app a : forall b, as_bytes (a ++ b) =
  match as_bytes a, as_bytes b with Some x, Some y => Some (x ++ y) | _, _ => None end.
Proof.
  induction a as [|[c|] a IH]; intros b; cbn [as_bytes app]; [destruct (as_bytes b); reflexivity| |reflexivity].
  rewrite IH. destruct (as_bytes a), (as_bytes b); reflexivity.
Qed.

Definition data_res (w : list cell) : res bytes := match as_bytes w with Some bs => Ok bs | None => Throw MissingData end.

(** *** Data of (sub-)views *)
Lemma v_data_spec os ch q v lo hi : view_at os ch q v lo hi -> q_begin q <= lo -> ordered lo hi ->
  v_data ch v = data_res (window q lo hi).
Proof.
  intros V Hb Ho. unfold v_data, data_res. destruct (blocks_spec _ _ _ _ _ _ V Hb Ho) as [(bs & bl & G & -> & E & _)|[G ->]].
  - unfold no_gap in G. rewrite G, as_bytes_map, <- E. reflexivity.
  - rewrite (as_bytes_gap _ G). reflexivity.
Qed.

(** Sub-view of [n] bytes from the current position. *)
Lemma sub_view os ch q v lo hi n : view_at os ch q v lo hi -> q_begin q <= lo ->
  exists it s, it_incr ch (v_begin v) n = Ok it /\ v_sub_iter ch (v_begin v) it = Ok s /\
    v_size ch s = length (window q lo (Some (lo + n))) /\ v_data ch s = data_res (window q lo (Some (lo + n))) /\
    exists os' q', view_at os' ch q' (mkView it (v_end v)) (lo + n) hi /\ q_begin q' = q_begin q /\ q_cells q' = q_cells q /\
      ch_is_frozen ch = q_frozen q.
Proof.
  intros V Hb. pose proof (view_facts _ _ _ _ _ _ V) as F. pose proof V as [Hc Hch Hq Ha Hbg He].
  rewrite Hq in Ha, Hbg. destruct (holds_incr os (v_begin v) lo n Hc Ha Hbg) as (os' & i' & q' & Ei & Hc' & Eq & Ech & Eb & Ecs & Ed & Hh & Hk).
  rewrite <- Hch in *. rewrite <- Hq in *.
  exists i', (mkView (v_begin v) (Some i')). split; [exact Ei|].
  assert (V' : view_at os' ch q' (mkView (v_begin v) (Some i')) lo (Some (lo + n))) by (constructor; auto).
  assert (Hb' : q_begin q' <= lo) by lia. assert (Ho' : ordered lo (Some (lo + n))) by (cbn; lia).
  split.
  { unfold v_sub_iter, v_static. rewrite ensure_ok; [reflexivity|apply F|]. rewrite <- (vf_hoff _ _ _ _ _ F).
    pose proof (vf_off _ _ _ _ _ F) as Eo. unfold v_off in *. cbn [v_begin]. rewrite Eo. exact Hb. }
  rewrite (size_window _ _ _ _ _ _ V' Hb' Ho'), (v_data_spec _ _ _ _ _ _ V' Hb' Ho').
  rewrite (window_same q q' lo _ Eb Ecs). split; [reflexivity|]. split; [reflexivity|].
  exists os', q'. split; [constructor; auto|].
  - cbn [v_end]. destruct (v_end v), hi; auto.
  - split; [exact Eb|]. split; [exact Ecs|apply F].
Qed.

Lemma sub_data_spec os ch q v lo hi n : view_at os ch q v lo hi -> q_begin q <= lo ->
  sub_data ch v n = data_res (window q lo (Some (lo + n))).
Proof.
  intros V Hb. destruct (sub_view _ _ _ _ _ _ n V Hb) as (it & s & E1 & E2 & _ & E3 & _).
  unfold sub_data. rewrite E1. cbn [bind]. rewrite E2. exact E3.
Qed.

(** The first [n] cells, when they are there. *)
Lemma window_first q lo hi n : q_begin q <= lo -> ordered lo hi -> n <= length (window q lo hi) \/ hi = None ->
  window q lo (Some (lo + n)) = firstn n (window q lo hi).
Proof.
  intros Hb Ho Hn. rewrite <- (window_limit q lo hi n Hb Ho). f_equal. f_equal. f_equal.
  destruct hi as [e|]; [|reflexivity]. destruct Hn as [Hn|Hn]; [|discriminate].
  rewrite (window_length q lo (Some e) Hb) in Hn. lia.
Qed.

Lemma firstn_prefix {A} n (w D : list A) : (exists more, D = w ++ more) -> n <= length w -> firstn n w = firstn n D.
Proof. intros [m ->] H. rewrite firstn_app. replace (n - length w) with 0 by lia. cbn. rewrite app_nil_r. reflexivity. Qed.

Section Frames.
Context {X : list frame}.
Local Notation pin := (pin (X := X)).

(** *** Fields *)
Definition fmeets (o : outcome (bytes * view)) (r : fres) (D : list cell) (closed : bool) (lo : nat) (hi : option nat) : Prop :=
  match r with
  | FOk bs n => exists v' ch' rest, o = Finished (Ok (bs, v')) ch' rest /\ pin v' ch' rest (skipn n D) closed (lo + n) hi
  | FFail e => exists ch' rest, o = Finished (Throw e) ch' rest
  | FWait => exists ch', o = Suspended ch'
  end.

Lemma wait_or_eod_wm n v ch sched : wait_or_eod n v ch sched = wm (Some n) v ch sched.
Proof. apply wait_min_wm. lia. Qed.

Lemma wait_for_input_wm n v ch sched : wait_for_input n v ch sched =
  obind (wm (Some n) v ch sched) (fun ok ch sched => Finished (if ok : bool then Ok tt else Throw ParseError) ch sched).
Proof.
  unfold wait_for_input. rewrite wait_or_eod_wm. destruct (n <=? v_size ch v) eqn:E; [|reflexivity].
  rewrite wm_eq. cbn [reached]. rewrite E. reflexivity.
Qed.

Lemma size_ok trim n eod v ch sched D closed lo hi : pin v ch sched D closed lo hi ->
  (eod = true -> hi = None) ->
  fmeets (parse_bytes_size trim n eod v ch sched) (spec_field (FSize n eod) D closed) D closed lo hi.
Proof.
  intros I He. unfold parse_bytes_size, extract_bytes. rewrite wait_or_eod_wm.
  destruct (wait_cases (Some n) v ch sched D closed lo hi I) as [(ch' & rest & -> & I' & R & _)|[(ch' & rest & -> & I' & Sz & R & -> & _ & Fz)|(ch' & -> & R & ->)]].
  - cbn [obind]. cbn [reached] in R. apply Nat.leb_le in R. rewrite orb_true_r.
    destruct (pin_now _ _ _ _ _ _ _ I') as (os & q & P & N & _). pose proof (pv_view _ _ _ _ _ _ P) as V.
    destruct N as [Np Ns No]. unfold lift. rewrite (sub_data_spec _ _ _ _ _ _ n V (pv_inside _ _ _ _ _ _ P)).
    rewrite (window_first q lo hi n (pv_inside _ _ _ _ _ _ P) (pv_ordered _ _ _ _ _ _ P)) by (left; lia).
    rewrite (firstn_prefix n _ _ Np) by lia.
    assert (LD : n <= length D) by (destruct Np as [m ->]; rewrite app_length; lia).
    assert (E : spec_field (FSize n eod) D closed = value_of (firstn n D) n).
    { cbn [spec_field]. unfold need. destruct eod; destruct (Nat.leb_spec n (length D)); try lia; reflexivity. }
    rewrite E. unfold value_of, data_res. destruct (as_bytes (firstn n D)) as [bs|]; cbn [obind fmeets]; [|eauto].
    destruct (advance_pin trim n _ _ _ _ _ _ _ I' (or_introl R)) as (v' & ch'' & -> & I'' & _). cbn [obind]. eauto.
  - cbn [obind reached] in *. apply Nat.leb_gt in R. cbn [orb].
    destruct eod; cbn [orb spec_field]; unfold need.
    + specialize (He eq_refl). subst hi. rewrite orb_true_r.
      destruct (pin_now _ _ _ _ _ _ _ I') as (os & q & P & N & _). pose proof (pv_view _ _ _ _ _ _ P) as V.
      destruct N as [Np Ns No]. unfold lift. rewrite (sub_data_spec _ _ _ _ _ _ n V (pv_inside _ _ _ _ _ _ P)).
      rewrite (window_first q lo None n (pv_inside _ _ _ _ _ _ P) (pv_ordered _ _ _ _ _ _ P)) by (right; reflexivity).
      assert (EW : window q lo None = D).
      { destruct Np as [m EE]. assert (L : length D = length (window q lo None)) by congruence.
        rewrite EE, app_length in L. destruct m; [rewrite app_nil_r in EE; auto|cbn in L; lia]. }
      rewrite EW. unfold value_of, data_res. destruct (as_bytes (firstn n D)) as [bs|]; cbn [obind fmeets]; [|eauto].
      destruct (advance_pin trim n _ _ _ _ _ _ _ I' (or_intror (conj eq_refl (Fz eq_refl)))) as (v' & ch'' & -> & I'' & _). cbn [obind]. eauto.
    + destruct (Nat.leb_spec n (length D)); [lia|]. cbn [obind fmeets]. eauto.
  - cbn [obind reached] in *. apply Nat.leb_gt in R. destruct eod; cbn [spec_field]; unfold need; destruct (Nat.leb_spec n (length D)); try lia; cbn [orb fmeets]; eauto.
Qed.

Lemma all_there {A} (w D : list A) : (exists more, D = w ++ more) -> length w = length D -> w = D.
Proof. intros [m ->] L. rewrite app_length in L. destruct m; [rewrite app_nil_r; reflexivity|cbn in L; lia]. Qed.
Lemma prefix_le {A} (w D : list A) : (exists more, D = w ++ more) -> length w <= length D.
Proof. intros [m ->]. rewrite app_length. lia. Qed.

Lemma starts_prefix lit : forall (w more : list cell), length lit <= length w -> starts_cells (w ++ more) lit = starts_cells w lit.
Proof.
  induction lit as [|c lit IH]; intros w more L; [destruct w, more; reflexivity|].
  destruct w as [|[b|] w]; [cbn in L; lia| |reflexivity]. cbn [app starts_cells]. destruct (Z.eqb b c); [|reflexivity].
  apply IH. cbn in L. lia.
Qed.
Lemma starts_gap lit : forall w e, starts_cells w lit = Throw e -> e = MissingData /\ as_bytes (firstn (length lit) w) = None.
Proof.
  induction lit as [|c lit IH]; intros w e; [destruct w; discriminate|].
  destruct w as [|[b|] w]; cbn [starts_cells length firstn as_bytes]; [discriminate| |intros [= <-]; auto].
  destruct (Z.eqb b c); [|discriminate]. intros H. destruct (IH _ _ H) as [-> ->]. auto.
Qed.
Lemma starts_no_ub lit : forall w, starts_cells w lit <> UB.
Proof.
  induction lit as [|c lit IH]; intros w; [destruct w; discriminate|].
  destruct w as [|[b|] w]; cbn [starts_cells]; try discriminate. destruct (Z.eqb b c); [apply IH|discriminate].
Qed.

Lemma literal_ok trim lit v ch sched D closed lo hi : pin v ch sched D closed lo hi ->
  fmeets (parse_literal trim lit v ch sched) (spec_field (FLiteral lit) D closed) D closed lo hi.
Proof.
  intros I. unfold parse_literal, expect_literal. rewrite wait_or_eod_wm. cbn [spec_field]. unfold need.
  destruct (wait_cases (Some (length lit)) v ch sched D closed lo hi I) as [(ch' & rest & -> & I' & R & _)|[(ch' & rest & -> & I' & Sz & R & -> & _ & Fz)|(ch' & -> & R & ->)]].
  - cbn [obind]. cbn [reached] in R. apply Nat.leb_le in R.
    destruct (pin_now _ _ _ _ _ _ _ I') as (os & q & P & N & _). pose proof (pv_view _ _ _ _ _ _ P) as V.
    destruct N as [Np Ns No]. unfold lift.
    rewrite (starts_spec _ _ _ _ _ _ lit V (pv_inside _ _ _ _ _ _ P) (pv_ordered _ _ _ _ _ _ P)).
    rewrite (sub_data_spec _ _ _ _ _ _ (length lit) V (pv_inside _ _ _ _ _ _ P)).
    rewrite (window_first q lo hi (length lit) (pv_inside _ _ _ _ _ _ P) (pv_ordered _ _ _ _ _ _ P)) by (left; lia).
    rewrite (firstn_prefix (length lit) _ _ Np) by lia. pose proof (prefix_le _ _ Np) as LD.
    destruct (Nat.leb_spec (length lit) (length D)); [|lia].
    assert (Es : starts_cells D lit = starts_cells (window q lo hi) lit) by (destruct Np as [m ->]; apply starts_prefix; lia).
    rewrite <- Es. destruct (starts_cells D lit) as [[|]|e|] eqn:S.
    + cbn [bind obind]. destruct (advance_pin trim (length lit) _ _ _ _ _ _ _ I' (or_introl R)) as (v' & ch'' & -> & I'' & _).
      cbn [obind fmeets]. eauto.
    + cbn [bind]. unfold data_res. destruct (as_bytes (firstn (length lit) D)); cbn [bind obind fmeets]; eauto.
    + destruct (starts_gap _ _ _ S) as [-> ->]. cbn [bind obind fmeets]. eauto.
    + destruct (starts_no_ub _ _ S).
  - cbn [obind reached] in *. rewrite R. cbn [fmeets]. eauto.
  - cbn [obind reached] in *. rewrite R. cbn [fmeets]. eauto.
Qed.

Lemma eod_wait v ch sched D closed lo hi : pin v ch sched D closed lo hi ->
  (exists b ch' rest, wait_for_eod v ch sched = Finished (Ok b) ch' rest /\ pin v ch' rest D closed lo hi /\
     v_size ch' v = length D /\ closed = true) \/
  (exists ch', wait_for_eod v ch sched = Suspended ch' /\ closed = false).
Proof.
  intros I. unfold wait_for_eod. rewrite wait_min_wm by lia.
  pose proof I as (os0 & q0 & P0 & _). pose proof (view_facts _ _ _ _ _ _ (pv_view _ _ _ _ _ _ P0)) as F0.
  rewrite (vf_end _ _ _ _ _ F0), (vf_off _ _ _ _ _ F0). pose proof (pv_ordered _ _ _ _ _ _ P0) as Ho.
  set (min := match hi with None => None | Some e => _ end).
  assert (Em : min = match hi with None => None | Some e => Some (e - lo) end).
  { subst min. destruct hi as [e|]; [|reflexivity]. cbn in Ho. destruct (Nat.ltb_spec e lo); [lia|reflexivity]. }
  clearbody min. subst min.
  destruct (wait_cases (match hi with None => None | Some e => Some (e - lo) end) v ch sched D closed lo hi I) as [(ch' & rest & -> & I' & R & _)|[(ch' & rest & -> & I' & Sz & R & -> & _ & Fz)|(ch' & -> & R & ->)]].
  - left. destruct (pin_now _ _ _ _ _ _ _ I') as (os & q & P & N & Ov). destruct N as [Np Ns No].
    destruct hi as [e|]; [|discriminate]. cbn [reached] in R. apply Nat.leb_le in R. rewrite Ns in R.
    rewrite (window_length q lo (Some e) (pv_inside _ _ _ _ _ _ P)) in R.
    destruct Ov as [EW Ec].
    { unfold over. apply orb_true_iff. destruct (pv_before_end _ _ _ _ _ _ P) as [Hbe|Hbe]; [right|left; exact Hbe].
      apply Nat.leb_le. cbn in Ho. lia. }
    exists true, ch', rest. rewrite Ns, EW. auto.
  - left. exists false, ch', rest. auto.
  - right. eauto.
Qed.

Lemma eod_ok trim v ch sched D closed lo hi : pin v ch sched D closed lo hi ->
  fmeets (parse_bytes_eod trim v ch sched) (spec_field FEod D closed) D closed lo hi.
Proof.
  intros I. unfold parse_bytes_eod. cbn [spec_field].
  destruct (eod_wait _ _ _ _ _ _ _ I) as [(b & ch' & rest & -> & I' & Sz & ->)|(ch' & -> & ->)]; [|cbn; eauto].
  cbn [obind]. destruct (pin_now _ _ _ _ _ _ _ I') as (os & q & P & N & _). pose proof (pv_view _ _ _ _ _ _ P) as V.
  destruct N as [Np Ns No]. unfold lift. rewrite (v_data_spec _ _ _ _ _ _ V (pv_inside _ _ _ _ _ _ P) (pv_ordered _ _ _ _ _ _ P)).
  rewrite (all_there _ _ Np) by congruence. unfold data_res, value_of. destruct (as_bytes D) as [bs|]; cbn [obind fmeets]; [|eauto].
  rewrite Sz. destruct (advance_pin trim (length D) _ _ _ _ _ _ _ I') as (v' & ch'' & -> & I'' & _); [left; lia|]. cbn [obind]. eauto.
Qed.

Lemma wait_change_wm v ch sched D closed lo hi : pin v ch sched D closed lo hi ->
  wait_change v ch sched = wm (Some (S (v_size ch v))) v ch sched.
Proof.
  intros (os & q & P & _ & _). unfold wait_change. remember (v_size ch v) as old eqn:E. symmetry in E.
  revert os ch q P E. induction sched as [|b r IH]; intros os ch q P E; rewrite wm_eq; cbn [wait_loop reached]; rewrite E;
    (destruct (Nat.leb_spec (S old) old); [lia|]); destruct (v_is_complete ch v) as [[|]| |]; try reflexivity.
  pose proof (pv_batches _ _ _ _ _ _ [b] P) as P'. cbn [fold_left] in P'.
  assert (L : old <= v_size (apply_batch ch b) v).
  { rewrite <- E. rewrite (size_window _ _ _ _ _ _ (pv_view _ _ _ _ _ _ P) (pv_inside _ _ _ _ _ _ P) (pv_ordered _ _ _ _ _ _ P)).
    rewrite (size_window _ _ _ _ _ _ (pv_view _ _ _ _ _ _ P') (pv_inside _ _ _ _ _ _ P') (pv_ordered _ _ _ _ _ _ P')).
    destruct (grow_all q lo hi [b] (pv_alive _ _ _ _ _ _ P) (pv_inside _ _ _ _ _ _ P) (pv_before_end _ _ _ _ _ _ P)) as (more & -> & _).
    rewrite app_length. lia. }
  destruct (Nat.eqb_spec (v_size (apply_batch ch b) v) old) as [E'|E'].
  - apply (IH _ _ _ P' E').
  - rewrite wm_eq. cbn [reached]. destruct (Nat.leb_spec (S old) (v_size (apply_batch ch b) v)); [reflexivity|lia].
Qed.

Lemma at_eod_ok v ch sched D closed lo hi : pin v ch sched D closed lo hi ->
  match D, closed with
  | [], false => exists ch', at_eod v ch sched = Suspended ch'
  | _, _ => exists ch' rest, at_eod v ch sched = Finished (Ok (match D with [] => true | _ => false end)) ch' rest /\
                             pin v ch' rest D closed lo hi
  end.
Proof.
  intros I. destruct (pin_now _ _ _ _ _ _ _ I) as (os & q & P & [Np Ns No] & Ov). pose proof (pv_view _ _ _ _ _ _ P) as V.
  unfold at_eod. destruct (Nat.ltb_spec 0 (v_size ch v)) as [L|L].
  - pose proof (prefix_le _ _ Np) as LD. destruct D as [|d D]; [cbn in LD; lia|]. destruct closed; eauto.
  - rewrite (complete_spec _ _ _ _ _ _ V (pv_inside _ _ _ _ _ _ P)).
    change (q_frozen q || match hi with Some e => e <=? q_end q | None => false end) with (over q hi).
    destruct (over q hi) eqn:O.
    + destruct (Ov eq_refl) as [EW Ec]. assert (LD : length D = 0) by (rewrite <- EW; lia).
      destruct D; [|discriminate]. rewrite Ec. exists ch, sched. rewrite <- Ec. auto.
    + rewrite (wait_change_wm _ _ _ _ _ _ _ I).
      destruct (wait_cases (Some (S (v_size ch v))) v ch sched D closed lo hi I) as [(ch' & rest & -> & I' & R & _)|[(ch' & rest & -> & I' & Sz & R & -> & _ & Fz)|(ch' & -> & R & ->)]];
        cbn [obind]; replace (v_size ch v) with 0 in * by lia; cbn [reached] in R.
      * destruct (pin_now _ _ _ _ _ _ _ I') as (os' & q' & P' & [Np' Ns' No'] & _). apply Nat.leb_le in R.
        pose proof (prefix_le _ _ Np') as LD. destruct D as [|d D]; [cbn in LD; lia|]. cbn [negb]. destruct closed; eauto.
      * apply Nat.leb_gt in R. destruct D; [|cbn in R; lia]. cbn [negb]. eauto.
      * apply Nat.leb_gt in R. destruct D; [|cbn in R; lia]. eauto.
Qed.

End Frames.
