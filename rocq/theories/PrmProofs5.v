(** What the pass leaves behind is still a well-formed program. *)
From Coq Require Import ZArith List Bool Arith Lia.
From Verif Require Import PrmModel PrmSpec PrmProofs1 PrmProofs2 PrmProofs3 PrmProofs4.
Import ListNotations.

Lemma drop_flat_map_In {A B} (h : A -> list B) i ps (l : list A) x :
  In x (flat_map h (drop_pos i ps l)) -> In x (flat_map h l).
Proof.
  intros H. apply in_flat_map in H. destruct H as (a & Ha & Hx). apply in_flat_map. exists a.
  split; [now apply drop_pos_In in Ha|exact Hx].
Qed.

Lemma ecalls_rwp P e m g args' : In (m, g, args') (ecalls (rwp P e)) ->
  exists args, In (m, g, args) (ecalls e) /\ args' = drop_pos 0 (un P g) (map (rwp P) args).
Proof.
  induction e as [z|v|a b IHa IHb|a b IHa IHb|m0 f args IH] using pexpr_ind'; cbn [rwp ecalls].
  - easy.
  - easy.
  - intros H. apply in_app_or in H. destruct H as [H | H].
    + destruct (IHa H) as (x & Hx & E). exists x. split; [apply in_or_app; now left|exact E].
    + destruct (IHb H) as (x & Hx & E). exists x. split; [apply in_or_app; now right|exact E].
  - intros H. apply in_app_or in H. destruct H as [H | H].
    + destruct (IHa H) as (x & Hx & E). exists x. split; [apply in_or_app; now left|exact E].
    + destruct (IHb H) as (x & Hx & E). exists x. split; [apply in_or_app; now right|exact E].
  - intros [H | H].
    + injection H as -> -> <-. exists args. split; [now left|reflexivity].
    + apply drop_flat_map_In, in_flat_map in H. destruct H as (a' & Ha' & Hc).
      apply in_map_iff in Ha'. destruct Ha' as (a & <- & Ha). rewrite Forall_forall in IH.
      destruct (IH a Ha Hc) as (x & Hx & E). exists x. split; [right; apply in_flat_map; eauto|exact E].
Qed.

Lemma scalls_rwsp P c m g args' : In (m, g, args') (scalls (rwsp P c)) ->
  exists args, In (m, g, args) (scalls c) /\ args' = drop_pos 0 (un P g) (map (rwp P) args).
Proof.
  induction c; cbn [rwsp scalls]; rewrite ?in_app_iff; intros H;
    repeat match goal with H : _ \/ _ |- _ => destruct H as [H|H] end;
    try (now destruct H);
    try (apply ecalls_rwp in H; destruct H as (x & Hx & E); exists x; rewrite ?in_app_iff; tauto).
  - destruct (IHc1 H) as (x & Hx & E). exists x. rewrite ?in_app_iff. tauto.
  - destruct (IHc2 H) as (x & Hx & E). exists x. rewrite ?in_app_iff. tauto.
  - destruct (IHc1 H) as (x & Hx & E). exists x. rewrite ?in_app_iff. tauto.
  - destruct (IHc2 H) as (x & Hx & E). exists x. rewrite ?in_app_iff. tauto.
  - destruct (IHc H) as (x & Hx & E). exists x. rewrite ?in_app_iff. tauto.
Qed.

Lemma inout_drop P us (args : list pexpr) v : forall i ps,
  In v (inout_direct (drop_pos i us ps) (drop_pos i us (map (rwp P) args))) -> In v (inout_direct ps args).
Proof.
  unfold inout_direct. induction args as [|a args IH]; intros i ps.
  - destruct (drop_pos i us ps); cbn; [easy|]. easy.
  - destruct ps as [|[p k] ps]; [easy|]. cbn [drop_pos map]. destruct (memb i us).
    + intros H. cbn [combine flat_map]. apply in_or_app. right. exact (IH _ _ H).
    + cbn [combine flat_map]. rewrite !in_app_iff. intros [H | H]; [left|right; exact (IH _ _ H)].
      destruct k; try easy. now destruct a.
Qed.

Section After.
  Variable P : pprog.
  Hypothesis WF : well_formed P.
  Hypothesis RS : removal_safe P.

  Lemma ewr_rwp e v : In v (ewr (remove P) (rwp P e)) -> In v (ewr P e).
  Proof.
    induction e as [z|w|a b IHa IHb|a b IHa IHb|m f args IH] using pexpr_ind'; cbn [rwp ewr]; auto.
    - rewrite !in_app_iff. tauto.
    - rewrite !in_app_iff. tauto.
    - rewrite (remove_eq P WF RS), !in_app_iff. intros [H | H].
      + left. destruct (plook f P) as [gd|]; [|exact H]. cbn [rmfn fn_params] in H. exact (inout_drop _ _ _ _ _ _ H).
      + right. apply drop_flat_map_In, in_flat_map in H. destruct H as (a' & Ha' & Hv).
        apply in_map_iff in Ha'. destruct Ha' as (a & <- & Ha). apply in_flat_map. exists a. split; [exact Ha|].
        rewrite Forall_forall in IH. auto.
  Qed.

  Lemma swr_rwsp c v : In v (swr (remove P) (rwsp P c)) -> In v (swr P c).
  Proof.
    induction c; cbn [rwsp swr In]; rewrite ?in_app_iff; intros H;
      repeat match goal with H : _ \/ _ |- _ => destruct H end; auto using ewr_rwp.
  Qed.

  Lemma drop_names_nodup i us (l : list (nat * pkind)) : NoDup (map fst l) -> NoDup (map fst (drop_pos i us l)).
  Proof.
    revert i. induction l as [|[p k] l IH]; intros i H; cbn [drop_pos map fst] in *; [constructor|].
    inversion H as [|? ? Hn ND]; subst. destruct (memb i us); [auto|]. cbn [map fst]. constructor; [|auto].
    intros K. apply Hn. apply in_map_iff in K. destruct K as (q & <- & Hq). apply in_map. now apply drop_pos_In in Hq.
  Qed.

  Hypothesis ND : NoDup (map fst P).

  Lemma plook_of_In f fd : In (f, fd) P -> plook f P = Some fd.
  Proof.
    clear WF RS. induction P as [|[g gd] l IH]; [easy|]. cbn [map fst plook In] in *. inversion ND as [|? ? Hn ND']; subst.
    intros [E | H].
    - injection E as -> ->. now rewrite Nat.eqb_refl.
    - destruct (Nat.eqb_spec f g) as [-> | _]; [|auto]. exfalso. apply Hn. exact (in_map fst _ _ H).
  Qed.

  Lemma drop_keep i us (l : list (nat * pkind)) q : In q l ->
    (forall j, nth_error l j = Some q -> ~ In (i + j) us) -> In q (drop_pos i us l).
  Proof.
    revert i. induction l as [|a l IH]; intros i H N; [destruct H|]. cbn [drop_pos].
    assert (K : In q l -> In q (drop_pos (S i) us l)).
    { intros Hq. apply IH; [exact Hq|]. intros j Hj. replace (S i + j) with (i + S j) by lia. apply N. exact Hj. }
    destruct (memb i us) eqn:M.
    - destruct H as [-> | H]; [|auto]. exfalso. apply (N 0 eq_refl). rewrite Nat.add_0_r. now apply memb_spec.
    - destruct H as [-> | H]; [now left|right; auto].
  Qed.

  Lemma wr_named c p : In (VP p) (swr P c) -> In p (sparams c).
  Proof.
    assert (EW : forall e, In (VP p) (ewr P e) -> In p (eparams e)).
    { intros e. induction e as [z|w|a b IHa IHb|a b IHa IHb|m f args IH] using pexpr_ind'; cbn [ewr eparams]; auto.
      - easy.
      - rewrite !in_app_iff. tauto.
      - rewrite !in_app_iff. tauto.
      - rewrite in_app_iff. intros [H | H].
        + destruct (plook f P) as [gd|]; [|destruct H]. unfold inout_direct in H. apply in_flat_map in H.
          destruct H as ([[q k] a] & Hq & Hv). apply in_combine_r in Hq. apply in_flat_map. exists a. split; [exact Hq|].
          destruct k; try easy. destruct a; try easy. destruct Hv as [-> | []]. now left.
        + apply in_flat_map in H. destruct H as (a & Ha & Hv). apply in_flat_map. exists a. split; [exact Ha|].
          rewrite Forall_forall in IH. auto. }
    induction c; cbn [swr sparams In]; rewrite ?in_app_iff; intros H;
      repeat match goal with H : _ \/ _ |- _ => destruct H end; subst; cbn; auto.
  Qed.

  Lemma remove_well_formed : well_formed (remove P).
  Proof.
    intros f fd Hin. unfold remove in Hin. apply in_map_iff in Hin. destruct Hin as ([g gd] & E & Hin).
    pose proof (plook_of_In g gd Hin) as Lk. destruct (WF g gd Hin) as (NDp & CF & WR).
    assert (Efd : fd = rmfn P g gd).
    { pose proof (remove_eq P WF RS g) as K. rewrite Lk in K.
      unfold remove in K. rewrite (plook_map g (remove_fn P) P), Lk in K. injection E as _ <-. congruence. }
    injection E as -> _. subst fd. cbn [rmfn fn_params fn_body].
    refine (conj (drop_names_nodup 0 _ _ NDp) (conj _ _)).
    - intros [[m h] args'] Hc. apply scalls_rwsp in Hc. destruct Hc as (args & Hc & ->).
      destruct (CF _ Hc) as (hd & Eh & L). cbn in Eh, L. exists (rmfn P h hd). cbn.
      rewrite (remove_eq P WF RS), Eh. split; [reflexivity|]. apply drop_pos_length. now rewrite map_length.
    - intros p Hp. apply swr_rwsp in Hp. destruct (WR p Hp) as (k & Hk & Nk). exists k. split; [|exact Nk].
      apply drop_keep; [exact Hk|]. intros j Hj Hu. apply (named_not_removed P f gd p Lk NDp (wr_named _ _ Hp)).
      exists gd, j, k. auto.
  Qed.
End After.

Lemma direct_calls_kept P m g args i a : In (m, g, args) (pcalls P) -> nth_error args i = Some a ->
  is_fcall a = true -> ~ In i (un P g).
Proof.
  intros Hin Ha Hf Hu. unfold un in Hu. destruct (plook g P) as [gd|]; [|destruct Hu].
  apply unused_In in Hu. destruct Hu as (_ & _ & Hu & _).
  assert (K : uses_effects P g = true).
  { unfold uses_effects. apply existsb_exists. exists (m, g, args). split; [exact Hin|].
    rewrite Nat.eqb_refl. cbn [andb]. apply existsb_exists. exists a. split; [|exact Hf]. now apply nth_error_In in Ha. }
  congruence.
Qed.
