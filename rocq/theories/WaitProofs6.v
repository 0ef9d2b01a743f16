(** Enclosing views (&size, &max-size) and whole parsers. *)
From Verif Require Import Base StreamModel StreamSpec StreamProofs StreamProofs2 ViewModel ViewSpec
  ViewProofs ViewProofs2 ViewProofs3 ViewProofs4 WaitModel WaitSpec WaitProofs WaitProofs2 WaitProofs3 WaitProofs4 WaitProofs5.

Definition self_frame (v : view) (lo : nat) (hi : option nat) (D : list cell) (closed : bool) : frame :=
  mkFrame (v_begin v) lo (v_end v) lo hi D closed.

Lemma push_self X v ch sched D closed lo hi : pin (X := X) v ch sched D closed lo hi ->
  pin (X := self_frame v lo hi D closed :: X) v ch sched D closed lo hi.
Proof.
  intros (os & q & P & ED & Ec & T). exists os, q. split; [exact P|]. split; [exact ED|]. split; [exact Ec|].
  constructor; [|exact T]. pose proof P as [Hc Hch Hq Ha Hb He Hi Hbe Hor Hsm]. constructor; cbn [self_frame fr_begin fr_at fr_end fr_lo fr_hi fr_D fr_closed]; auto.
  intros x Hx. rewrite ED. rewrite <- window_skip; [replace (lo + (x - lo)) with x by lia; reflexivity|].
  rewrite (hr_begin _ _ _ _ (at_end_rel q sched Ha)). exact Hi.
Qed.

Lemma drop_frames X Y v ch sched D closed lo hi : (forall f, In f Y -> In f X) ->
  pin (X := X) v ch sched D closed lo hi -> pin (X := Y) v ch sched D closed lo hi.
Proof.
  intros H (os & q & P & ED & Ec & T). exists os, q. split; [exact P|]. split; [exact ED|]. split; [exact Ec|].
  rewrite Forall_forall in *. auto.
Qed.

(** A new iterator [n] behind the beginning of a tracked view. *)
Definition moved (f : frame) (i : iter) (n : nat) : frame :=
  mkFrame i (fr_at f + n) (fr_end f) (fr_lo f) (fr_hi f) (fr_D f) (fr_closed f).

Lemma add_iter X f n v ch sched D closed lo hi : In f X -> pin (X := X) v ch sched D closed lo hi ->
  exists i', it_incr ch (fr_begin f) n = Ok i' /\ it_off i' = fr_at f + n /\
    pin (X := moved f i' n :: X) v ch sched D closed lo hi.
Proof.
  intros HX (os & q & P & ED & Ec & T). pose proof P as [Hc Hch Hq Ha Hb He Hi Hbe Hor Hsm].
  assert (Tf : tracked os q sched lo f) by (rewrite Forall_forall in T; auto).
  pose proof (tr_begin _ _ _ _ _ Tf) as Pf. pose proof Pf as (k & h & Hk & Hh & Hoff & Hf).
  pose proof (pv_view _ _ _ _ _ _ P) as V. pose proof (view_facts _ _ _ _ _ _ V) as F.
  set (s := fst (run client_new os)) in *.
  assert (G : good (cl_chain s) (fr_begin f) /\ it_off (fr_begin f) = fr_at f).
  { destruct (run_sim os _ _ sim_new Hc) as [S0 _]. rewrite Hq in Ha.
    apply (holds_good _ _ _ _ S0 Ha). apply plain_holds. exact Pf. }
  destruct G as [G Go].
  set (i' := match n with 0 => fr_begin f | _ => exact_it (cl_chain s) (it_off (fr_begin f) + n) end).
  assert (Ei : it_incr ch (fr_begin f) n = Ok i').
  { rewrite Hch. rewrite Hch in F. apply it_incr_exact; [apply F|apply F|exact G]. }
  set (h' := mkHandle (h_off h + n) (h_end h && (n =? 0))).
  assert (Es : fst (run client_new (os ++ [OIncr k n])) = mkClient (cl_chain s) (cl_its s ++ [i'])).
  { rewrite run_snoc. cbn [step]. unfold on_iter. fold s. rewrite Hk. rewrite <- Hch, Ei. unfold with_iter. fold s. rewrite <- Hch. reflexivity. }
  assert (Eq : fst (spec_run queue_new (os ++ [OIncr k n])) = add_handle q h').
  { rewrite spec_run_snoc. cbn [spec_step]. unfold q_on. rewrite <- Hq in *. rewrite Hh. reflexivity. }
  assert (Hc1 : contract queue_new (os ++ [OIncr k n]) = true).
  { rewrite contract_app, Hc. cbn [contract andb]. unfold allowed. rewrite <- Hq in *. rewrite Hh. unfold h_fresh. rewrite Hf. cbn.
    rewrite !orb_true_r. reflexivity. }
  rewrite Hq in Eq.
  destruct (plain_add os (OIncr k n) i' h' Hc Es Eq) as (Pl & Pn & Nk & Nh). rewrite <- Hq in *. fold s in Nk, Nh.
  assert (Pn' : plain (os ++ [OIncr k n]) i' (fr_at f + n)).
  { rewrite <- Hoff. apply Pn. cbn. rewrite Hf. reflexivity. }
  set (os1 := os ++ [OIncr k n]) in *.
  assert (Win' : forall x hi', window (at_end (add_handle q h') sched) x hi' = window (at_end q sched) x hi' /\
    over (at_end (add_handle q h') sched) hi' = over (at_end q sched) hi').
  { intros x hi'. pose proof (at_end_rel q sched Ha) as R. pose proof (at_end_rel (add_handle q h') sched Ha) as R'.
    cbn [add_handle q_frozen] in R'. destruct R as [r_b r_c r_f r_d r_h], R' as [s_b s_c s_f s_d s_h].
    cbn [add_handle q_begin q_cells] in s_b, s_c. split.
    - apply window_same; congruence.
    - unfold over, q_end. rewrite s_f, s_b, s_c, r_f, r_b, r_c. reflexivity. }
  assert (T1 : Forall (tracked os1 (add_handle q h') sched lo) X).
  { revert T. apply Forall_impl. intros g [A B C E]. constructor; auto.
    - unfold plain_end in *. destruct (fr_end g), (fr_hi g); auto.
    - intros x Hx. rewrite (proj1 (Win' x (fr_hi g))). auto.
    - rewrite (proj2 (Win' lo (fr_hi g))). exact E. }
  exists i'. split; [exact Ei|]. split.
  { unfold i'. destruct n; [rewrite Go; lia|]. cbn. rewrite Go. reflexivity. }
  exists os1, (add_handle q h'). split.
  { constructor; auto; try (symmetry; exact Eq); try (rewrite Es; exact Hch). destruct (v_end v), hi; auto. }
  split; [rewrite (proj1 (Win' lo hi)); exact ED|]. split; [rewrite (proj2 (Win' lo hi)); exact Ec|].
  constructor; [|exact T1].
  rewrite Forall_forall in T1. pose proof (T1 f HX) as [A B C E]. constructor; auto.
Qed.

(** The current view limited at the beginning of a tracked view. *)
Lemma relimit X f n v ch sched D closed lo hi : In f X -> pin (X := X) v ch sched D closed lo hi ->
  (Z.of_nat (fr_at f) < 2 ^ 64)%Z -> fr_at f = lo + match hi with None => n | Some h => Nat.min n (h - lo) end ->
  pin (X := X) (mkView (v_begin v) (Some (fr_begin f))) ch sched (firstn n D) (closed || (n <=? length D)) lo (Some (fr_at f)).
Proof.
  intros HX (os & q & P & ED & Ec & T) Esm Ef. pose proof P as [Hc Hch Hq Ha Hb He Hi Hbe Hor Hsm].
  assert (Tf : tracked os q sched lo f) by (rewrite Forall_forall in T; auto).
  pose proof (at_end_rel q sched Ha) as R. pose proof (hr_begin _ _ _ _ R) as Rb. 
  exists os, q. split.
  { constructor; cbn; auto; [apply Tf|lia]. }
  assert (Hi' : q_begin (at_end q sched) <= lo) by lia.
  split; [|split; [|exact T]].
  - rewrite ED, Ef. symmetry. apply window_limit; assumption.
  - assert (LD : length D = length (window (at_end q sched) lo hi)) by congruence.
    rewrite (window_length _ lo hi Hi') in LD. rewrite LD, Ec, Ef. unfold over.
    destruct (q_frozen (at_end q sched)) eqn:Fz; [reflexivity|]. cbn [orb].
    assert (Hend : lo <= q_end (at_end q sched)).
    { destruct Hbe as [Hbe|Hbe]; [|rewrite (hr_frozen _ _ _ _ R), (produced_frozen_mono _ _ Hbe) in Fz; discriminate].
      unfold q_end in *. rewrite (hr_cells _ _ _ _ R), Rb, app_length. lia. }
    clear -Hend Hor. generalize dependent (q_end (at_end q sched)). intros e Hend.
    destruct hi as [h|]; cbn [ordered] in Hor;
      repeat match goal with |- context [?a <=? ?b] => destruct (Nat.leb_spec a b) end; try reflexivity; exfalso; lia.
Qed.

(** Back to a tracked view whose beginning is the current position. *)
Lemma leave X f v ch sched D closed o h : In f X -> pin (X := X) v ch sched D closed o (Some h) ->
  fr_at f = o -> match fr_hi f with None => True | Some e => h <= e /\ (Z.of_nat e < 2 ^ 64)%Z end ->
  pin (X := X) (mkView (fr_begin f) (fr_end f)) ch sched (skipn (o - fr_lo f) (fr_D f)) (fr_closed f) o (fr_hi f).
Proof.
  intros HX (os & q & P & ED & Ec & T) Ef Hh. pose proof P as [Hc Hch Hq Ha Hb He Hi Hbe Hor Hsm].
  assert (Tf : tracked os q sched o f) by (rewrite Forall_forall in T; auto). destruct Tf as [A B C E].
  exists os, q. split.
  { constructor; cbn [v_begin v_end]; auto.
    - rewrite <- Ef. exact A.
    - destruct (fr_hi f); [|exact Logic.I]. cbn [ordered] in *. lia.
    - destruct (fr_hi f); [apply Hh|exact Logic.I]. }
  split; [symmetry; apply C, le_n|]. split; [symmetry; exact E|exact T].
Qed.

Definition room (lo n : nat) (hi : option nat) : nat := match hi with None => n | Some h => Nat.min n (h - lo) end.

Lemma enter_ok X n v ch sched D closed lo hi : pin (X := X) v ch sched D closed lo hi -> (Z.of_nat lo + Z.of_nat n < 2 ^ 64)%Z ->
  exists lv nv fn, enter_limited n v ch = Ok (lv, nv) /\ v_off nv = lo + n /\
    nv = mkView (fr_begin fn) (fr_end fn) /\ fr_at fn = lo + n /\ fr_lo fn = lo /\ fr_hi fn = hi /\ fr_D fn = D /\ fr_closed fn = closed /\
    pin (X := fn :: self_frame v lo hi D closed :: X) lv ch sched (firstn n D) (closed || (n <=? length D)) lo
      (Some (lo + room lo n hi)).
Proof.
  intros I Hn. destruct (pin_now _ _ _ _ _ _ _ I) as (os & q & P & [_ _ No] & _).
  pose proof (push_self _ _ _ _ _ _ _ _ I) as I1. set (sf := self_frame v lo hi D closed) in *.
  destruct (add_iter _ sf n _ _ _ _ _ _ _ (in_eq _ _) I1) as (i1 & E1 & O1 & I2).
  set (m := room lo n hi).
  destruct (add_iter _ sf m _ _ _ _ _ _ _ (in_cons _ _ _ (in_eq _ _)) I2) as (i2 & E2 & O2 & I3).
  cbn [fr_begin sf self_frame fr_at] in E1, O1, E2, O2.
  assert (Hm : m <= n) by (unfold m, room; destruct hi; lia).
  pose proof (relimit _ (moved sf i2 m) n _ _ _ _ _ _ _ (in_eq _ _) I3) as I4. cbn [moved fr_at fr_begin sf self_frame] in I4.
  specialize (I4 ltac:(lia) eq_refl).
  exists (mkView (v_begin v) (Some i2)), (mkView i1 (v_end v)), (moved sf i1 n).
  pose proof (view_facts _ _ _ _ _ _ (pv_view _ _ _ _ _ _ P)) as F.
  pose proof (vf_off _ _ _ _ _ F) as Ho. pose proof (vf_end _ _ _ _ _ F) as He.
  assert (Lm : limit_size v n = m).
  { rewrite limit_size_ordered; rewrite He, Ho; [reflexivity|]. pose proof P as [_ _ _ _ _ _ _ _ Hor Hsm].
    destruct hi as [h|]; [|exact Logic.I]. cbn [ordered] in Hor. split; [exact Hor|].
    apply Nat2Z.inj_lt. rewrite Z2Nat.id by (apply Z.pow_nonneg; lia). exact Hsm. }
  split.
  { unfold enter_limited. rewrite Ho. destruct (Z.leb_spec (2 ^ 64) (Z.of_nat lo + Z.of_nat n)); [lia|].
    unfold v_limit, v_advance. rewrite Lm, E2. cbn [bind]. unfold v_static.
    rewrite ensure_ok; [|apply F|]; [cbn [bind]; rewrite E1; reflexivity|].
    rewrite <- (vf_hoff _ _ _ _ _ F). unfold v_off in *. cbn [v_begin]. rewrite Ho.
    exact (pv_inside _ _ _ _ _ _ P). }
  split; [exact O1|]. split; [reflexivity|]. cbn [moved fr_at sf self_frame fr_lo fr_hi fr_D fr_closed].
  repeat (split; [reflexivity|]).
  revert I4. apply drop_frames. intros g [H|[H|H]]; cbn; auto.
Qed.

Definition pmeets (X : list frame) (r : list bytes * outcome view) (s : list bytes * status) (D : list cell) (closed : bool)
    (lo : nat) (hi : option nat) : Prop :=
  fst r = fst s /\
  match snd s with
  | Success o => lo <= o /\ exists v' ch' rest, snd r = Finished (Ok v') ch' rest /\
                   pin (X := X) v' ch' rest (skipn (o - lo) D) closed o hi
  | Failed e => exists ch' rest, snd r = Finished (Throw e) ch' rest
  | Undefined => False
  | Waiting => exists ch', snd r = Suspended ch'
  end.

Lemma pmeets_step X r s D D' closed lo lo' hi vs : D' = skipn (lo' - lo) D -> lo <= lo' -> pmeets X r s D' closed lo' hi ->
  pmeets X (vs ++ fst r, snd r) (vs ++ fst s, snd s) D closed lo hi.
Proof.
  intros -> L [A B]. split; cbn [fst snd]; [rewrite A; reflexivity|]. destruct (snd s); auto.
  destruct B as (Lo & v' & ch' & rest & E & I). split; [lia|]. exists v', ch', rest. split; [exact E|].
  rewrite skipn_plus in I. replace (lo' - lo + (off - lo')) with (off - lo) in I by lia. exact I.
Qed.

Lemma prog_meets trim p : forall X hi v ch sched D closed lo, pin (X := X) v ch sched D closed lo hi ->
  forall g, (g = true -> exists bs, as_bytes D = Some bs) ->
  prog_ok g (match hi with Some _ => true | None => false end) p ->
  pmeets X (exec_prog trim p v ch sched) (spec_prog p lo D closed) D closed lo hi.
Proof.
  induction p as [|f k IH|k IH|n body IHb k IH|n body IHb k IH]; intros X hi v ch sched D closed lo I g Hg Hp.
  - split; [reflexivity|]. cbn. split; [apply le_n|]. exists v, ch, sched. rewrite Nat.sub_diag. split; [reflexivity|exact I].
  - destruct Hp as [Hf Hk]. cbn [exec_prog spec_prog].
    assert (Hf' : field_ok (match as_bytes D with Some _ => true | None => false end) (match hi with Some _ => true | None => false end) f).
    { destruct f; try exact Hf. cbn [field_ok] in *. destruct (Hg Hf) as [bs ->]. reflexivity. }
    pose proof (field_meets trim f v ch sched D closed lo hi I Hf') as M. unfold fmeets in M.
    destruct (spec_field f D closed) as [bs n|e|].
    + destruct M as (v' & ch' & rest & -> & I'). cbv zeta.
      apply (pmeets_step X (exec_prog trim (k bs) v' ch' rest) (spec_prog (k bs) (lo + n) (skipn n D) closed) D (skipn n D) closed lo (lo + n) hi [bs]);
        [f_equal; lia|lia|].
      apply (IH bs X hi v' ch' rest _ closed _ I' g); [|apply Hk].
      intros Eg. destruct (Hg Eg) as [b Eb]. eexists. apply as_bytes_skipn. exact Eb.
    + destruct M as (ch' & rest & ->). split; cbn; eauto.
    + destruct M as (ch' & ->). split; cbn; eauto.
  - cbn [exec_prog spec_prog]. pose proof (at_eod_ok _ _ _ _ _ _ _ I) as M. destruct D as [|d D].
    + destruct closed.
      * destruct M as (ch' & rest & -> & I'). apply (IH true _ _ _ _ _ _ _ _ I' g Hg (Hp true)).
      * destruct M as (ch' & ->). split; cbn; eauto.
    + destruct M as (ch' & rest & -> & I'). apply (IH false _ _ _ _ _ _ _ _ I' g Hg (Hp false)).
  - destruct Hp as [Hb Hk]. cbn [exec_prog spec_prog].
    destruct (Z.leb_spec (2 ^ 64) (Z.of_nat lo + Z.of_nat n)) as [Ov|Ov].
    { unfold enter_limited. destruct (pin_now _ _ _ _ _ _ _ I) as (os & q & P & [_ _ No] & _). rewrite No.
      destruct (Z.leb_spec (2 ^ 64) (Z.of_nat lo + Z.of_nat n)); [|lia]. split; cbn; eauto. }
    destruct (enter_ok _ n _ _ _ _ _ _ _ I Ov) as (lv & nv & fn & -> & No & Env & Fa & Fl & Fh & FD & Fc & I1).
    assert (Gb : g = true -> exists bs, as_bytes (firstn n D) = Some bs).
    { intros Eg. destruct (Hg Eg) as [b Eb]. rewrite (as_bytes_some _ _ Eb), firstn_map, as_bytes_map. eauto. }
    pose proof (IHb _ _ _ _ _ _ _ _ I1 g Gb Hb) as [A B].
    set (r := exec_prog trim body lv ch sched) in *. set (s := spec_prog body lo (firstn n D) (closed || (n <=? length D))) in *.
    cbv zeta. clearbody r s. destruct r as [rv ro], s as [sv ss]. cbn [fst snd] in *. subst rv.
    destruct ss as [o|e| |].
    + destruct B as (Lo & v' & ch' & rest & -> & I2).
      destruct (pin_now _ _ _ _ _ _ _ I2) as (os & q & P & [_ _ No2] & _). rewrite No2, No.
      pose proof (pv_ordered _ _ _ _ _ _ P) as Hor. cbn [ordered] in Hor.
      destruct (Nat.ltb_spec o (lo + n)) as [L|L]; [split; cbn; eauto|].
      assert (Eo : o = lo + n) by (unfold room in Hor; destruct hi; lia). 
      assert (Rh : match hi with None => True | Some e => lo + room lo n hi <= e /\ (Z.of_nat e < 2 ^ 64)%Z end).
      { destruct (pin_now _ _ _ _ _ _ _ I) as (os0 & q0 & P0 & _ & _). pose proof (pv_ordered _ _ _ _ _ _ P0) as Hor0.
        pose proof (pv_small _ _ _ _ _ _ P0) as Hs0. destruct hi as [h|]; [|exact Logic.I]. cbn [ordered room] in *. lia. }
      assert (Fh' : match fr_hi fn with None => True | Some e => lo + room lo n hi <= e /\ (Z.of_nat e < 2 ^ 64)%Z end) by (rewrite Fh; exact Rh).
      pose proof (leave _ fn _ _ _ _ _ _ _ (in_eq _ _) I2 ltac:(congruence) Fh') as I3.
      rewrite <- Env, Fh, FD, Fc, Fl in I3. 
      assert (I4 : pin (X := X) nv ch' rest (skipn n D) closed (lo + n) hi).
      { rewrite Eo in I3. replace (lo + n - lo) with n in I3 by lia. revert I3. apply drop_frames. intros; cbn; auto. }
      apply (pmeets_step X (exec_prog trim (k sv) nv ch' rest) (spec_prog (k sv) (lo + n) (skipn n D) closed) D (skipn n D) closed lo (lo + n) hi sv);
        [f_equal; lia|lia|].
      apply (IH sv X hi nv ch' rest _ closed _ I4 g); [|apply Hk].
      intros Eg. destruct (Hg Eg) as [b Eb]. eexists. apply as_bytes_skipn. exact Eb.
    + destruct B as (ch' & rest & ->). split; cbn; eauto.
    + destruct B.
    + destruct B as (ch' & ->). split; cbn; eauto.
  - destruct Hp as [Hb Hk]. cbn [exec_prog spec_prog].
    destruct (Z.leb_spec (2 ^ 64) (Z.of_nat lo + Z.of_nat (n + 1))) as [Ov|Ov].
    { unfold enter_limited. destruct (pin_now _ _ _ _ _ _ _ I) as (os & q & P & [_ _ No] & _). rewrite No.
      destruct (Z.leb_spec (2 ^ 64) (Z.of_nat lo + Z.of_nat (n + 1))); [|lia]. split; cbn; eauto. }
    destruct (enter_ok _ (n + 1) _ _ _ _ _ _ _ I Ov) as (lv & nv & fn & -> & No & Env & Fa & Fl & Fh & FD & Fc & I1).
    assert (Gb : g = true -> exists bs, as_bytes (firstn (n + 1) D) = Some bs).
    { intros Eg. destruct (Hg Eg) as [b Eb]. rewrite (as_bytes_some _ _ Eb), firstn_map, as_bytes_map. eauto. }
    pose proof (IHb _ _ _ _ _ _ _ _ I1 g Gb Hb) as [A B].
    set (r := exec_prog trim body lv ch sched) in *. set (s := spec_prog body lo (firstn (n + 1) D) (closed || (n + 1 <=? length D))) in *.
    cbv zeta. clearbody r s. destruct r as [rv ro], s as [sv ss]. cbn [fst snd] in *. subst rv.
    destruct ss as [o|e| |].
    + destruct B as (Lo & v' & ch' & rest & -> & I2).
      destruct (pin_now _ _ _ _ _ _ _ I2) as (os & q & P & [_ _ No2] & _). rewrite No2, No.
      pose proof (pv_ordered _ _ _ _ _ _ P) as Hor. cbn [ordered] in Hor.
      destruct (Nat.leb_spec (lo + (n + 1)) o) as [L|L]; destruct (Nat.ltb_spec (lo + n) o) as [L'|L']; try lia; [split; cbn; eauto|].
      assert (Rh : match hi with None => True | Some e => lo + room lo (n + 1) hi <= e /\ (Z.of_nat e < 2 ^ 64)%Z end).
      { destruct (pin_now _ _ _ _ _ _ _ I) as (os0 & q0 & P0 & _ & _). pose proof (pv_ordered _ _ _ _ _ _ P0) as Hor0.
        pose proof (pv_small _ _ _ _ _ _ P0) as Hs0. destruct hi as [h|]; [|exact Logic.I]. cbn [ordered room] in *. lia. }
      destruct (pin_now _ _ _ _ _ _ _ I) as (os0 & q0 & P0 & [_ _ No0] & _). rewrite No0.
      destruct (add_iter _ (self_frame v lo hi D closed) (o - lo) _ _ _ _ _ _ _ (in_cons _ _ _ (in_eq _ _)) I2) as (i' & Ei & Oi & I3).
      cbn [self_frame fr_begin fr_at] in Ei, Oi. unfold v_advance. rewrite Ei. cbn [bind].
      pose proof (leave _ (moved (self_frame v lo hi D closed) i' (o - lo)) _ _ _ _ _ _ _ (in_eq _ _) I3) as I4.
      cbn [moved self_frame fr_at fr_hi fr_begin fr_end fr_lo fr_D fr_closed] in I4.
      specialize (I4 ltac:(lia) Rh).
      assert (I5 : pin (X := X) (mkView i' (v_end v)) ch' rest (skipn (o - lo) D) closed o hi).
      { revert I4. apply drop_frames. intros; cbn; auto. }
      apply (pmeets_step X (exec_prog trim (k sv) (mkView i' (v_end v)) ch' rest) (spec_prog (k sv) o (skipn (o - lo) D) closed) D (skipn (o - lo) D) closed lo o hi sv);
        [reflexivity|lia|].
      apply (IH sv X hi _ ch' rest _ closed _ I5 g); [|apply Hk].
      intros Eg. destruct (Hg Eg) as [b Eb]. eexists. apply as_bytes_skipn. exact Eb.
    + destruct B as (ch' & rest & ->). split; cbn; eauto.
    + destruct B.
    + destruct B as (ch' & ->). split; cbn; eauto.
Qed.

Lemma pmeets_status X r s D closed lo hi : pmeets X r s D closed lo hi -> (fst r, status_of (snd r)) = s.
Proof.
  intros [A B]. destruct r as [rv ro], s as [sv ss]. cbn [fst snd] in *. subst rv. f_equal. destruct ss as [o|e| |].
  - destruct B as (_ & v' & ch' & rest & -> & I). destruct (pin_now _ _ _ _ _ _ _ I) as (os & q & P & [_ _ No] & _). cbn. rewrite No. reflexivity.
  - destruct B as (ch' & rest & ->). reflexivity.
  - destruct B.
  - destruct B as (ch' & ->). reflexivity.
Qed.

(** In a limited view nothing behind the limit is consumed. *)
Lemma first_occ_le x bs : forall k, first_occ x bs = Some k -> k + length x <= length bs.
Proof.
  induction bs as [|b bs IH]; intros k; cbn [first_occ].
  - destruct (prefixb x []) eqn:B; [|discriminate]. intros [= <-]. destruct x; [cbn; lia|discriminate B].
  - destruct (prefixb x (b :: bs)) eqn:B.
    + intros [= <-]. apply prefixb_spec in B. destruct B as [t B]. rewrite B, app_length. lia.
    + destruct (first_occ x bs) as [j|]; [|discriminate]. intros [= <-]. specialize (IH j eq_refl). cbn [length]. lia.
Qed.

Lemma spec_field_bound f D closed bs n : field_ok true true f -> spec_field f D closed = FOk bs n -> n <= length D.
Proof.
  intros Hf. destruct f as [m|m [|]|lit|inc x| | |m| ]; cbn [spec_field field_ok] in *; unfold need, value_of.
  - destruct (Nat.leb_spec m (length D)); [|destruct closed; discriminate]. destruct (as_bytes _); [intros [= _ <-]; lia|discriminate].
  - discriminate Hf.
  - destruct (Nat.leb_spec m (length D)); [|destruct closed; discriminate]. destruct (as_bytes _); [intros [= _ <-]; lia|discriminate].
  - destruct (Nat.leb_spec (length lit) (length D)); [|destruct closed; discriminate].
    destruct (starts_cells D lit) as [[|]| |]; try (destruct (as_bytes _); discriminate). intros [= _ <-]. lia.
  - destruct (as_bytes D) as [b|] eqn:E; [|discriminate]. rewrite (as_bytes_some _ _ E), map_length.
    destruct (first_occ x b) as [k|] eqn:F; [|destruct closed; discriminate]. intros [= _ <-]. exact (first_occ_le _ _ _ F).
  - destruct closed; [|discriminate]. destruct (as_bytes D); [intros [= _ <-]; lia|discriminate].
  - destruct (as_bytes D); [|discriminate]. destruct closed; [intros [= _ <-]; lia|discriminate].
  - destruct (Nat.leb_spec m (length D)); [|destruct closed; discriminate]. intros [= _ <-]. lia.
  - destruct closed; [intros [= _ <-]; lia|discriminate].
Qed.

Lemma field_ok_limited g f : field_ok g true f -> field_ok true true f.
Proof. destruct f as [m|m [|]|lit|inc x| | |m| ]; cbn; auto. Qed.

Lemma spec_bound p : forall g lo D closed o, prog_ok g true p -> snd (spec_prog p lo D closed) = Success o -> lo <= o <= lo + length D.
Proof.
  induction p as [|f k IH|k IH|n body IHb k IH|n body IHb k IH]; intros g lo D closed o Hp; cbn [spec_prog].
  - intros [= <-]. lia.
  - destruct Hp as [Hf Hk]. destruct (spec_field f D closed) as [bs n|e|] eqn:E; cbn [snd]; try discriminate.
    intros H. apply (IH bs g) in H; [|apply Hk]. pose proof (spec_field_bound _ _ _ _ _ (field_ok_limited _ _ Hf) E). rewrite skipn_length in H. lia.
  - destruct D as [|d D]; [destruct closed; [|discriminate]|]; intros H; apply (IH _ g) in H; auto; apply Hp.
  - destruct Hp as [Hb Hk]. destruct (Z.leb_spec (2 ^ 64) (Z.of_nat lo + Z.of_nat n)); [discriminate|]. cbv zeta.
    destruct (snd (spec_prog body lo (firstn n D) (closed || (n <=? length D)))) as [o'| | |] eqn:E; try discriminate.
    destruct (Nat.ltb_spec o' (lo + n)); cbn [snd]; [discriminate|]. intros H1.
    apply (IHb g) in E; [|exact Hb]. rewrite firstn_length in E. apply (IH _ g) in H1; [|apply Hk]. rewrite skipn_length in H1. lia.
  - destruct Hp as [Hb Hk]. destruct (Z.leb_spec (2 ^ 64) (Z.of_nat lo + Z.of_nat (n + 1))); [discriminate|]. cbv zeta.
    destruct (snd (spec_prog body lo (firstn (n + 1) D) (closed || (n + 1 <=? length D)))) as [o'| | |] eqn:E; try discriminate.
    destruct (Nat.ltb_spec (lo + n) o'); cbn [snd]; [discriminate|]. intros H1.
    apply (IHb g) in E; [|exact Hb]. rewrite firstn_length in E. apply (IH _ g) in H1; [|apply Hk]. rewrite skipn_length in H1. lia.
Qed.
