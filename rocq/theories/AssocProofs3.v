(** Proof of C42 and C43, part 3: every step, and traces. *)
From Coq Require Import Sorted.
From Verif Require Import Base BytesModel BytesSpec BytesProofs3 AssocModel AssocSpec AssocProofs AssocProofs2.
Open Scope Z_scope.

Definition xsim (rb : res (xmach * xobs)) (ra : res (ymach * xobs)) (m : xmach) (a : ymach) : Prop :=
  res_obs rb = res_obs ra /\ res_obs ra <> UB /\ xrel (res_state m rb) (res_state a ra).
Lemma xsim_throw e m a : xrel m a -> xsim (Throw e) (Throw e) m a.
Proof. intros R. split; [reflexivity|]. split; [discriminate|]. exact R. Qed.
Lemma xsim_ok o m a m' a' : xrel m' a' -> xsim (Ok (m', o)) (Ok (a', o)) m a.
Proof. intros R. split; [reflexivity|]. split; [discriminate|]. exact R. Qed.

Lemma nodup_at {m a} (R : xrel m a) o b : xobj_at (xm_st m) o = Some b ->
  NoDup (nids (x_ents b)) /\ Forall (fun n => (n < xs_node (xm_st m))%nat) (nids (x_ents b)).
Proof. intros H. apply (proj1 (x_nodes _ _ R) o b H). Qed.
Lemma fresh_no {m a} (R : xrel m a) n o b : (xs_node (xm_st m) <= n)%nat -> xobj_at (xm_st m) o = Some b -> ~ In n (nids (x_ents b)).
Proof. intros H Hb Hin. destruct (nodup_at R o b Hb) as [_ F]. rewrite Forall_forall in F. specialize (F n Hin). lia. Qed.
Lemma others_no {m a} (R : xrel m a) n o b o' b' : xobj_at (xm_st m) o = Some b -> In n (nids (x_ents b)) -> o' <> o ->
  xobj_at (xm_st m) o' = Some b' -> ~ In n (nids (x_ents b')).
Proof. intros Hb Hin N Hb' Hin'. apply N. eapply (proj2 (x_nodes _ _ R)); eauto. Qed.

(** Special cases of [put_rel]. *)
Lemma put_clear {m a} (R : xrel m a) o b y : xobj_at (xm_st m) o = Some b -> yget a o = Some y ->
  xrel (mkXM (xput (xm_st m) o (Some (mkXO [] None (x_data b)))) (xm_its m)) (yput a o (Some (mkYO [] (S (y_epoch y)) (y_iter y)))).
Proof.
  intros Hb Hy. eapply put_rel; [exact R|exact Hb|exact Hy|..]; cbn;
    [reflexivity|constructor|reflexivity|reflexivity|constructor|constructor|lia|intros ? ? ? []|]. right. right. auto.
Qed.
Lemma put_erase {m a} (R : xrel m a) o b y k : xobj_at (xm_st m) o = Some b -> yget a o = Some y ->
  xrel (mkXM (xput (xm_st m) o (Some (mkXO (eerase k (x_ents b)) None (x_data b)))) (xm_its m))
       (yput a o (Some (mkYO (del (y_map y) k) (S (y_epoch y)) (y_iter y)))).
Proof.
  intros Hb Hy. destruct (xrel_get R o y Hy) as (b0 & Hb0 & C1 & C2 & _). rewrite Hb in Hb0. injection Hb0 as <-.
  destruct (nodup_at R o b Hb) as [D1 D2]. eapply put_rel; [exact R|exact Hb|exact Hy|..]; cbn; try reflexivity.
  - rewrite map_eerase, C1. reflexivity.
  - apply sorted_del. exact C2.
  - apply nodup_filter. exact D1.
  - rewrite Forall_forall in *. intros n Hn. apply D2. eapply nids_filter_in; exact Hn.
  - intros n o' b'' Hn. apply nids_filter_in in Hn. eapply others_no; eauto.
  - right. right. auto.
Qed.
Lemma put_assign {m a} (R : xrel m a) o b y k v : xobj_at (xm_st m) o = Some b -> yget a o = Some y -> efind k (x_ents b) <> None ->
  xrel (mkXM (xput (xm_st m) o (Some (mkXO (eassign k v (x_ents b)) (x_ctl b) (x_data b)))) (xm_its m))
       (yput a o (Some (mkYO (put (y_map y) k v) (y_epoch y) (y_iter y)))).
Proof.
  intros Hb Hy Hk. destruct (xrel_get R o y Hy) as (b0 & Hb0 & C1 & C2 & _). rewrite Hb in Hb0. injection Hb0 as <-.
  destruct (nodup_at R o b Hb) as [D1 D2]. eapply put_rel; [exact R|exact Hb|exact Hy|..]; cbn; try reflexivity.
  - rewrite map_eassign; [rewrite C1; reflexivity|rewrite C1; exact C2|exact Hk].
  - apply sorted_put. exact C2.
  - rewrite nids_eassign. exact D1.
  - rewrite nids_eassign. exact D2.
  - intros n o' b'' Hn. rewrite nids_eassign in Hn. eapply others_no; eauto.
  - left. repeat split; auto. intros p q. apply pos_rel_eassign.
Qed.
Lemma put_insert {m a} (R : xrel m a) o b y k v (reset : bool) : xobj_at (xm_st m) o = Some b -> yget a o = Some y -> efind k (x_ents b) = None ->
  xrel (mkXM (mkXS (upd (xs_objs (xm_st m)) o (Some (mkXO (einsert (xs_node (xm_st m)) k v (x_ents b)) (if reset then None else x_ctl b) (x_data b))))
                   (xs_ctl (xm_st m)) (S (xs_node (xm_st m)))) (xm_its m))
       (yput a o (Some (mkYO (put (y_map y) k v) (if reset then S (y_epoch y) else y_epoch y) (y_iter y)))).
Proof.
  intros Hb Hy Hk. destruct (xrel_get R o y Hy) as (b0 & Hb0 & C1 & C2 & _). rewrite Hb in Hb0. injection Hb0 as <-.
  destruct (nodup_at R o b Hb) as [D1 D2]. eapply put_rel; [exact R|exact Hb|exact Hy|..]; cbn; try reflexivity.
  - rewrite map_einsert, C1. reflexivity.
  - apply sorted_put. exact C2.
  - apply nodup_einsert; [|exact D1|apply efind_none; exact Hk]. apply (fresh_no R _ o b); [lia|exact Hb].
  - rewrite Forall_forall in *. intros n Hn. apply nids_einsert_in in Hn. destruct Hn as [->|Hn]; [lia|]. specialize (D2 n Hn). cbn in D2. lia.
  - lia.
  - intros n o' b'' Hn N Hb''. apply nids_einsert_in in Hn. destruct Hn as [->|Hn]; [apply (fresh_no R _ o' b''); [lia|exact Hb'']|exact (others_no R n o b o' b'' Hb Hn N Hb'')].
  - destruct reset; [right; right; auto|left]. repeat split; auto. intros p q. apply pos_rel_einsert. exact Hk.
Qed.
Lemma put_moved {m a} (R : xrel m a) o b y ct : xobj_at (xm_st m) o = Some b -> yget a o = Some y -> ~ has_iters a o -> ct = x_ctl b \/ ct = None ->
  xrel (mkXM (xput (xm_st m) o (Some (mkXO [] ct (x_data b)))) (xm_its m)) (yput a o (Some (mkYO [] (y_epoch y) (y_iter y)))).
Proof.
  intros Hb Hy Hn Hc. eapply put_rel; [exact R|exact Hb|exact Hy|..]; cbn;
    [reflexivity|constructor|reflexivity|reflexivity|constructor|constructor|lia|intros ? ? ? []|]. right. left. auto.
Qed.

Lemma seq_range n len x : In x (seq n len) <-> (n <= x < n + len)%nat.
Proof. apply in_seq. Qed.

Lemma insert_it_rel {m a} (R : xrel m a) o y : yget a o = Some y -> y_iter y = true -> forall p k chk,
  (forall b, xobj_at (xm_st m) o = Some b -> pos_rel (x_ents b) o p k) ->
  exists st' c, xref (xm_st m) o = Ok (st', (c, o)) /\
    xrel (mkXM st' (xm_its m ++ [mkXI (Some (c, o)) p chk])) (yadd a (mkYI o (y_epoch y) k chk)).
Proof.
  intros Hy Hi p k chk Hp. destruct (ref_rel m a o y R Hy Hi) as (st' & c & b & E & R' & Hb & Hc & Lc & He).
  exists st', c. split; [exact E|]. destruct (xrel_get R o y Hy) as (b0 & Hb0 & _).
  refine (add_rel (mkXM st' (xm_its m)) a o y b c p k chk R' Hy Hb Hc Lc _). rewrite (He b0 Hb0). apply Hp. exact Hb0.
Qed.

Ltac xobjt R o b y Hb Hy C1 C2 C3 := match goal with H : yget ?a o <> None |- _ =>
  destruct (yget a o) as [y|] eqn:Hy; [|congruence]; destruct (xrel_get R o y Hy) as (b & Hb & C1 & C2 & C3 & _); rewrite ?Hb end.

Lemma xstep_sim m a p : xrel m a -> xop_ok a p -> xsim (xstep m p) (ystep a p) m a.
Proof.
  intros R Hp. destruct p; cbn [xstep ystep xop_ok] in *; cbv zeta.
  - (* XNew *)
    pose proof (ebuild_ok l [] (xs_node (xm_st m)) ltac:(constructor) ltac:(constructor)) as (A & B & C & D & E). cbn [map] in A.
    apply xsim_ok. apply new_rel; cbn [x_ents x_ctl x_data y_map y_iter]; auto; try discriminate.
    + apply sorted_build. constructor.
    + intros n o' b'' Hn Hb''. apply E in Hn. destruct Hn as [[]|Hn]. apply (fresh_no R _ o' b''); [lia|exact Hb''].
  - (* XCopy *)
    xobjt R o b y Hb Hy C1 C2 C3. apply xsim_ok. apply new_rel; cbn [x_ents x_ctl x_data y_map y_iter]; auto; try discriminate.
    + rewrite map_erenew. exact C1.
    + rewrite nids_erenew. apply seq_NoDup.
    + rewrite nids_erenew. apply Forall_forall. intros n Hn. apply seq_range in Hn. lia.
    + lia.
    + intros n o' b'' Hn Hb''. rewrite nids_erenew in Hn. apply seq_range in Hn. apply (fresh_no R n o' b''); [lia|exact Hb''].
  - (* XMoveNew *)
    destruct Hp as [H1 H2]. xobjt R o b y Hb Hy C1 C2 C3. destruct (nodup_at R o b Hb) as [D1 D2].
    pose proof (put_moved R o b y None Hb Hy H2 (or_intror eq_refl)) as R1. apply xsim_ok.
    assert (Lo : (o < length (xs_objs (xm_st m)))%nat) by (apply xobj_at_lt in Hb; exact Hb).
    assert (At : forall o', xobj_at (xput (xm_st m) o (Some (mkXO [] None (x_data b)))) o' = if Nat.eqb o' o then Some (mkXO [] None (x_data b)) else xobj_at (xm_st m) o').
    { intros o'. unfold xput. rewrite (xobj_at_upd _ _ _ (xs_ctl (xm_st m)) (xs_node (xm_st m))) by exact Lo. rewrite xs_eta. reflexivity. }
    refine (new_rel _ _ (mkXO (x_ents b) (x_ctl b) (x_data b)) (mkYO (y_map y) 0 false) (xs_node (xm_st m)) R1 C1 C2 _ D1 D2 (Nat.le_refl _) _ _);
      cbn [x_ents x_ctl x_data y_map y_iter xm_st]; [discriminate| |].
    + intros n o' b'' Hn. rewrite At. destruct (Nat.eqb_spec o' o) as [->|N]; [intros E; injection E as <-; intros []|]. eapply others_no; eauto.
    + intros c Hc. destruct (xrel_get R o y Hy) as (b0 & Hb0 & _ & _ & _ & C4). rewrite Hb in Hb0. injection Hb0 as <-. split; [cbn; apply C4; exact Hc|]. split.
      * intros o' b''. rewrite At. destruct (Nat.eqb_spec o' o) as [->|N]; [intros E; injection E as <-; discriminate|].
        intros E K. apply N. eapply (x_distinct _ _ R); eauto.
      * intros x d Hx. exact (no_iters_ctl R o b c x d Hb Hc H2 Hx).
  - (* XAssign *)
    destruct Hp as [H1 H2]. xobjt R d bd yd Hbd Hyd C1 C2 C3. xobjt R s bs ys Hbs Hys G1 G2 G3.
    destruct (Nat.eqb_spec d s) as [->|N]; [apply xsim_ok; exact R|]. apply xsim_ok.
    eapply put_rel; [exact R|exact Hbd|exact Hyd|..]; cbn [x_ents x_ctl x_data y_map y_iter y_epoch]; try reflexivity.
    + rewrite map_erenew. exact G1.
    + exact G2.
    + rewrite nids_erenew. apply seq_NoDup.
    + rewrite nids_erenew. apply Forall_forall. intros n Hn. apply seq_range in Hn. lia.
    + lia.
    + intros n o' b'' Hn _ Hb''. rewrite nids_erenew in Hn. apply seq_range in Hn. apply (fresh_no R n o' b''); [lia|exact Hb''].
    + right. right. auto.
  - (* XMoveAssign *)
    destruct Hp as (H1 & H2 & H3). xobjt R d bd yd Hbd Hyd C1 C2 C3. xobjt R s bs ys Hbs Hys G1 G2 G3.
    destruct (Nat.eqb_spec d s) as [->|N]; [apply xsim_ok; exact R|]. apply xsim_ok.
    destruct (nodup_at R s bs Hbs) as [D1 D2].
    pose proof (put_moved R s bs ys (x_ctl bs) Hbs Hys (H3 N) (or_introl eq_refl)) as R1.
    assert (Ls : (s < length (xs_objs (xm_st m)))%nat) by (apply xobj_at_lt in Hbs; exact Hbs).
    set (b1 := mkXO [] (x_ctl bs) (x_data bs)) in *.
    assert (At : forall o', xobj_at (xput (xm_st m) s (Some b1)) o' = if Nat.eqb o' s then Some b1 else xobj_at (xm_st m) o').
    { intros o'. unfold xput. rewrite (xobj_at_upd _ _ _ (xs_ctl (xm_st m)) (xs_node (xm_st m))) by exact Ls. rewrite xs_eta. reflexivity. }
    eapply (put_rel _ _ d bd yd _ _ (xs_node (xm_st m)) R1); cbn [x_ents x_ctl x_data y_map y_iter y_epoch xm_st]; try reflexivity.
    + rewrite At. destruct (Nat.eqb_spec d s); [contradiction|exact Hbd].
    + unfold yput. rewrite yget_upd by (apply yget_lt in Hys; exact Hys). destruct (Nat.eqb_spec d s); [contradiction|]. rewrite ym_eta. exact Hyd.
    + exact G1.
    + exact G2.
    + exact D1.
    + exact D2.
    + intros n o' b'' Hn No. rewrite At. destruct (Nat.eqb_spec o' s) as [->|Ns]; [intros E; injection E as <-; intros []|]. eapply others_no; eauto.
    + right. right. auto.
  - (* XDestroy *)
    xobjt R o b y Hb Hy C1 C2 C3. apply xsim_ok. eapply destroy_rel; eauto.
  - xobjt R o b y Hb Hy C1 C2 C3. cbn [rmap]. rewrite <- C1, lookup_efind. destruct (efind k (x_ents b)); apply xsim_ok; exact R.
  - xobjt R o b y Hb Hy C1 C2 C3. rewrite <- C1, lookup_efind. destruct (efind k (x_ents b)); cbn [rmap option_map]; [apply xsim_ok|apply xsim_throw]; exact R.
  - xobjt R o b y Hb Hy C1 C2 C3. cbn [rmap]. rewrite <- C1, lookup_efind. apply xsim_ok; exact R.
  - xobjt R o b y Hb Hy C1 C2 C3. cbn [rmap]. rewrite <- C1, map_length. apply xsim_ok; exact R.
  - (* XSet *)
    xobjt R o b y Hb Hy C1 C2 C3. pose proof (lookup_efind (x_ents b) k) as LE. rewrite C1 in LE. rewrite LE.
    destruct (efind k (x_ents b)) as [e|] eqn:E; cbn [option_map]; apply xsim_ok.
    + apply put_assign; auto. congruence.
    + apply (put_insert R o b y k v true Hb Hy E).
  - (* XErase *)
    xobjt R o b y Hb Hy C1 C2 C3. pose proof (lookup_efind (x_ents b) k) as LE. rewrite C1 in LE. rewrite LE.
    destruct (efind k (x_ents b)) as [e|] eqn:E; cbn [option_map]; apply xsim_ok; [|exact R]. apply put_erase; auto.
  - (* XSetErase *)
    xobjt R o b y Hb Hy C1 C2 C3. pose proof (lookup_efind (x_ents b) k) as LE. rewrite C1 in LE. rewrite LE.
    destruct (efind k (x_ents b)) as [e|] eqn:E; cbn [option_map]; apply xsim_ok; apply put_erase; auto.
  - (* XClear *)
    xobjt R o b y Hb Hy C1 C2 C3. apply xsim_ok. apply put_clear; auto.
  - (* XInsert *)
    destruct (yget a o) as [y|] eqn:Hy; [|contradiction]. destruct (xrel_get R o y Hy) as (b & Hb & C1 & C2 & C3 & _). rewrite Hb.
    pose proof (lookup_efind (x_ents b) k) as LE. rewrite C1 in LE. rewrite LE.
    destruct (efind k (x_ents b)) as [e|] eqn:E; cbn [option_map fst snd].
    + destruct (insert_it_rel R o y Hy Hp (Node (fst e)) (Some k) true) as (st' & c & -> & R').
      { intros b0 Hb0. rewrite Hb in Hb0. injection Hb0 as <-. apply efind_some in E. destruct E as [E1 E2]. destruct e as [n [k' v]]. cbn in *. subst k'.
        exists n, v. auto. }
      cbn [bind fst snd]. apply xsim_ok. exact R'.
    + pose proof (put_insert R o b y k 0 false Hb Hy E) as R1. set (a1 := yput a o _) in *.
      assert (Hy1 : yget a1 o = Some (mkYO (put (y_map y) k 0) (y_epoch y) (y_iter y))).
      { unfold a1, yput. rewrite yget_upd by (apply yget_lt in Hy; exact Hy). rewrite Nat.eqb_refl. reflexivity. }
      destruct (insert_it_rel R1 o _ Hy1 Hp (Node (xs_node (xm_st m))) (Some k) true) as (st' & c & E' & R').
      { intros b0 Hb0. cbn [xm_st] in Hb0. rewrite (xobj_at_upd _ _ _ (xs_ctl (xm_st m)) (xs_node (xm_st m))) in Hb0 by (apply xobj_at_lt in Hb; exact Hb).
        rewrite Nat.eqb_refl in Hb0. injection Hb0 as <-. cbn. exists (xs_node (xm_st m)), 0. split; [reflexivity|]. apply in_einsert. auto. }
      cbn [xm_st] in E'. rewrite E'. cbn [bind fst snd]. apply xsim_ok. exact R'.
  - (* XInsertHint *)
    destruct Hp as (Hp & Hh & Ho & Hl). destruct (yget a o) as [y|] eqn:Hy; [|contradiction]. destruct (xrel_get R o y Hy) as (b & Hb & C1 & C2 & C3 & _). rewrite Hb.
    assert (Hint : match xi_pos (xm_it m h) with End o' => Nat.eqb o o' | Node n => match node_in (x_ents b) n with Some _ => true | None => false end end = true).
    { destruct (xrel_it R h Hh) as (c & _ & _ & _ & _ & _ & E6). rewrite Hl in E6. destruct E6 as (b0 & F1 & _ & F3). rewrite Ho in *. rewrite Hb in F1. injection F1 as <-.
      unfold pos_rel in F3. destruct (yi_key (ym_it a h)) as [kk|].
      - destruct F3 as (n & v & -> & Hin). apply in_split in Hin. destruct Hin as (l1 & l2 & El). destruct (nodup_at R o b Hb) as [ND _].
        rewrite El in *. rewrite node_in_split; [reflexivity|]. unfold nids in *. rewrite map_app in ND. cbn in ND. apply NoDup_remove_2 in ND.
        intros G. apply ND. apply in_or_app. auto.
      - rewrite F3. apply Nat.eqb_refl. }
    rewrite Hint. pose proof (lookup_efind (x_ents b) k) as LE. rewrite C1 in LE. rewrite LE.
    destruct (efind k (x_ents b)) as [e|] eqn:E; cbn [option_map fst snd].
    + destruct (insert_it_rel R o y Hy Hp (Node (fst e)) (Some k) true) as (st' & c & -> & R').
      { intros b0 Hb0. rewrite Hb in Hb0. injection Hb0 as <-. apply efind_some in E. destruct E as [E1 E2]. destruct e as [n [k' v]]. cbn in *. subst k'.
        exists n, v. auto. }
      cbn [bind fst snd]. apply xsim_ok. exact R'.
    + pose proof (put_insert R o b y k 0 false Hb Hy E) as R1. set (a1 := yput a o _) in *.
      assert (Hy1 : yget a1 o = Some (mkYO (put (y_map y) k 0) (y_epoch y) (y_iter y))).
      { unfold a1, yput. rewrite yget_upd by (apply yget_lt in Hy; exact Hy). rewrite Nat.eqb_refl. reflexivity. }
      destruct (insert_it_rel R1 o _ Hy1 Hp (Node (xs_node (xm_st m))) (Some k) true) as (st' & c & E' & R').
      { intros b0 Hb0. cbn [xm_st] in Hb0. rewrite (xobj_at_upd _ _ _ (xs_ctl (xm_st m)) (xs_node (xm_st m))) in Hb0 by (apply xobj_at_lt in Hb; exact Hb).
        rewrite Nat.eqb_refl in Hb0. injection Hb0 as <-. cbn. exists (xs_node (xm_st m)), 0. split; [reflexivity|]. apply in_einsert. auto. }
      cbn [xm_st] in E'. rewrite E'. cbn [bind fst snd]. apply xsim_ok. exact R'.
  - (* XBegin *)
    destruct (yget a o) as [y|] eqn:Hy; [|contradiction]. destruct (xrel_get R o y Hy) as (b & Hb & C1 & C2 & C3 & _). rewrite Hb.
    destruct (insert_it_rel R o y Hy Hp (match x_ents b with (n, _) :: _ => Node n | [] => End o end) (option_map fst (hd_error (y_map y))) checked)
      as (st' & c & -> & R').
    { intros b0 Hb0. rewrite Hb in Hb0. injection Hb0 as <-. rewrite <- C1. destruct (x_ents b) as [|[n [k v]] es]; cbn; [reflexivity|]. exists n, v. auto. }
    cbn [bind fst snd]. apply xsim_ok. exact R'.
  - (* XEnd *)
    destruct (yget a o) as [y|] eqn:Hy; [|contradiction].
    destruct (insert_it_rel R o y Hy Hp (End o) None checked) as (st' & c & -> & R'); [intros; reflexivity|]. cbn [bind fst snd]. apply xsim_ok. exact R'.
  - (* XNext *)
    destruct Hp as [Hi Hc]. pose proof (xrel_it R i Hi) as I. set (x := xm_it m i) in *. set (z := ym_it a i) in *. pose proof I as I0.
    destruct I as (c & E1 & E2 & E3 & E4 & E5 & E6). unfold xnext. rewrite E1, (alive_live x z c I0 E1).
    assert (Hlive : ylive a z = match yget a (yi_obj z) with Some b => Nat.eqb (y_epoch b) (yi_epoch z) | None => false end) by reflexivity.
    destruct (yget a (yi_obj z)) as [y|] eqn:Hy; [|rewrite Hlive; apply xsim_throw; exact R]. rewrite <- Hlive.
    destruct (ylive a z) eqn:L; [|apply xsim_throw; exact R]. symmetry in Hlive. apply Nat.eqb_eq in Hlive.
    destruct E6 as (b & F1 & F2 & F3). rewrite F1, E4. unfold pos_rel in F3.
    destruct (yi_key z) as [k|] eqn:Ek.
    + destruct F3 as (n & v & Ep & Hin). rewrite Ep. cbn [pos_eqb]. apply in_split in Hin. destruct Hin as (l1 & l2 & El).
      destruct (xrel_get R _ y Hy) as (b0 & Hb0 & C1 & C2 & C3 & _). rewrite F1 in Hb0. injection Hb0 as <-.
      unfold std_next. rewrite (find_node_ok _ _ _ _ _ _ _ (x_nodes _ _ R) F1 El).
      rewrite El, map_app in C1. cbn [map snd] in C1. rewrite <- C1 in C2.
      rewrite <- C1, (first_after_mid _ _ _ _ C2).
      assert (Goal2 : xsim (Ok (mkXM (xm_st m) (xm_its m ++ [mkXI (Some (c, yi_obj z)) (match l2 with (n', _) :: _ => Node n' | [] => End (yi_obj z) end) (yi_checked z)]), XONone))
                           (Ok (yadd a (mkYI (yi_obj z) (yi_epoch z) (option_map fst (hd_error (map snd l2))) (yi_checked z)), XONone)) m a).
      { apply xsim_ok. rewrite <- Hlive. apply add_rel with (b := b); auto. rewrite El. destruct l2 as [|[n' [k' v']] l2]; cbn; [reflexivity|].
        exists n', v'. split; [reflexivity|]. apply in_or_app. right. cbn. auto. }
      destruct (yi_checked z); destruct l2 as [|[n' kv'] l2]; cbn [rmap bind]; exact Goal2.
    + rewrite F3. cbn [pos_eqb]. rewrite Nat.eqb_refl. destruct (yi_checked z); [apply xsim_throw; exact R|].
      exfalso. apply Hc; auto.
  - (* XDeref *)
    pose proof (xrel_it R i Hp) as I. set (x := xm_it m i) in *. set (z := ym_it a i) in *. pose proof I as I0.
    destruct I as (c & E1 & E2 & E3 & E4 & E5 & E6). unfold xderef. rewrite E1, (alive_live x z c I0 E1).
    assert (Hlive : ylive a z = match yget a (yi_obj z) with Some b => Nat.eqb (y_epoch b) (yi_epoch z) | None => false end) by reflexivity.
    destruct (yget a (yi_obj z)) as [y|] eqn:Hy; [|rewrite Hlive; apply xsim_throw; exact R]. rewrite <- Hlive.
    destruct (ylive a z) eqn:L; [|apply xsim_throw; exact R].
    destruct E6 as (b & F1 & F2 & F3). rewrite F1. unfold pos_rel in F3. destruct (yi_key z) as [k|] eqn:Ek.
    + destruct F3 as (n & v & Ep & Hin). rewrite Ep. cbn [pos_eqb]. apply in_split in Hin. destruct Hin as (l1 & l2 & El).
      destruct (xrel_get R _ y Hy) as (b0 & Hb0 & C1 & C2 & C3 & _). rewrite F1 in Hb0. injection Hb0 as <-.
      unfold std_deref. rewrite (find_node_ok _ _ _ _ _ _ _ (x_nodes _ _ R) F1 El). cbn [bind].
      rewrite El, map_app in C1. cbn [map snd] in C1. rewrite <- C1 in C2. rewrite <- C1, (lookup_mid _ _ _ _ C2). apply xsim_ok. exact R.
    + rewrite F3. cbn [pos_eqb]. rewrite Nat.eqb_refl. cbn [bind]. apply xsim_throw. exact R.
  - (* XEq *)
    destruct Hp as (Hi & Hj & Hl). pose proof (xrel_it R i Hi) as I. pose proof (xrel_it R j Hj) as J.
    set (x1 := xm_it m i) in *. set (z1 := ym_it a i) in *. set (x2 := xm_it m j) in *. set (z2 := ym_it a j) in *.
    destruct I as (c1 & A1 & _ & _ & _ & _ & A6), J as (c2 & B1 & _ & _ & _ & _ & B6). rewrite A1, B1. cbn [ref_eqb].
    assert (Hlive : forall z, ylive a z = match yget a (yi_obj z) with Some b => Nat.eqb (y_epoch b) (yi_epoch z) | None => false end) by reflexivity.
    destruct (Nat.eqb_spec c1 c2) as [->|N].
    + destruct (ylive a z1) eqn:L1, (ylive a z2) eqn:L2.
      * destruct A6 as (b1 & P1 & P2 & P3), B6 as (b2 & Q1 & Q2 & Q3). pose proof (x_distinct _ _ R _ _ _ _ _ P1 Q1 P2 Q2) as Eo. rewrite <- Eo in *.
        rewrite P1 in Q1. injection Q1 as <-. rewrite Hlive in L1, L2. rewrite <- Eo in L2. destruct (yget a (yi_obj z1)) as [y|] eqn:Hy; [|discriminate].
        apply Nat.eqb_eq in L1, L2. rewrite <- L1, <- L2, !Nat.eqb_refl. cbn [andb].
        destruct (xrel_get R _ y Hy) as (b0 & Hb0 & C1 & C2 & C3 & _). rewrite P1 in Hb0. injection Hb0 as <-.
        rewrite (pos_rel_eq _ _ _ _ _ _ (proj1 (nodup_at R _ _ P1)) ltac:(rewrite C1; exact C2) P3 Q3). apply xsim_ok. exact R.
      * destruct A6 as (b1 & P1 & P2 & P3). exfalso. exact (B6 _ _ P1 P2).
      * destruct B6 as (b1 & P1 & P2 & P3). exfalso. exact (A6 _ _ P1 P2).
      * exfalso. destruct Hl; discriminate.
    + assert (F : Nat.eqb (yi_obj z1) (yi_obj z2) && Nat.eqb (yi_epoch z1) (yi_epoch z2) = false).
      { destruct (Nat.eqb_spec (yi_obj z1) (yi_obj z2)) as [Eo|]; [|reflexivity]. destruct (Nat.eqb_spec (yi_epoch z1) (yi_epoch z2)) as [Ee|]; [|reflexivity].
        exfalso. assert (EL : ylive a z1 = ylive a z2) by (rewrite !Hlive, Eo, Ee; reflexivity). rewrite EL in *.
        destruct (ylive a z2); [|destruct Hl; discriminate]. destruct A6 as (b1 & P1 & P2 & P3), B6 as (b2 & Q1 & Q2 & Q3). rewrite Eo in P1. congruence. }
      rewrite F. apply xsim_throw. exact R.
Qed.

Lemma xtrace_sim ps : forall m a, xrel m a -> xprog_ok a ps -> xtrace m ps = ytrace a ps /\ ~ In UB (ytrace a ps).
Proof.
  induction ps as [|p ps IH]; intros m a R Hp; [split; [reflexivity|intros []]|]. cbn [xprog_ok xtrace ytrace] in *.
  destruct Hp as [Hp Hps]. destruct (xstep_sim m a p R Hp) as (E & U & R'). destruct (IH _ _ R' Hps) as [IH1 IH2].
  rewrite E, IH1. split; [reflexivity|]. intros [H|H]; [congruence|auto].
Qed.
