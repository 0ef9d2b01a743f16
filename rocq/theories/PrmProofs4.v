(** Promotion: entering a callee, whole programs; and both changes together. *)
From Coq Require Import ZArith List Bool Arith Lia.
From Verif Require Import PrmModel PrmSpec PrmProofs1 PrmProofs2 PrmProofs3.
Import ListNotations.

Lemma plook_none {A} p (l : list (nat * A)) : ~ In p (map fst l) -> plook p l = None.
Proof.
  induction l as [|[q x] l IH]; cbn; [reflexivity|]. intros H. destruct (Nat.eqb_spec p q); [exfalso; auto|auto].
Qed.

Lemma nodup_kind (ps : list (nat * pkind)) p k k' : NoDup (map fst ps) -> In (p, k) ps -> In (p, k') ps -> k = k'.
Proof.
  induction ps as [|[q x] ps IH]; cbn [In map fst]; [easy|]. intros ND H H'. inversion ND as [|? ? Hn ND']; subst.
  destruct H as [H | H], H' as [H' | H'].
  - congruence.
  - exfalso. injection H as -> ->. apply Hn. apply (in_map fst) in H'. exact H'.
  - exfalso. injection H' as -> ->. apply Hn. apply (in_map fst) in H. exact H.
  - eauto.
Qed.

Section Entry.
  Variable P : pprog.

  Lemma rbs_length A B W d gd ps bs1 bs2 : rbs P A B W d gd ps bs1 bs2 -> length bs1 = length ps /\ length bs2 = length ps.
  Proof. induction 1 as [|q b1 b2 ps bs1 bs2 H R [I1 I2]]; cbn; split; congruence. Qed.

  Lemma rbs_look A B W d gd ps bs1 bs2 : rbs P A B W d gd ps bs1 bs2 -> NoDup (map fst ps) ->
    forall p k, In (p, k) ps -> exists b1 b2,
      plook p (combine (map fst ps) bs1) = Some b1 /\ plook p (combine (map fst ps) bs2) = Some b2 /\
      rb P A B W d gd (p, k) b1 b2.
  Proof.
    induction 1 as [|[q kq] b1 b2 ps bs1 bs2 H R IH]; cbn [map fst combine plook]; intros ND p k Hin; [destruct Hin|].
    inversion ND as [|? ? Hn ND']; subst. destruct Hin as [E | Hin].
    - injection E as -> ->. rewrite Nat.eqb_refl. eauto.
    - destruct (Nat.eqb_spec p q) as [-> | _]; [|eauto].
      exfalso. apply Hn. apply (in_map fst) in Hin. exact Hin.
  Qed.

  Lemma combine_none {A B} p (l : list A) (f : A -> nat) (k : list B) : ~ In p (map f l) -> plook p (combine (map f l) k) = None.
  Proof.
    revert k. induction l as [|a l IH]; intros [|b k] H; cbn; try reflexivity.
    destruct (Nat.eqb_spec p (f a)) as [-> | _]; [exfalso; apply H; now left|]. apply IH. intros K. apply H. now right.
  Qed.

  Lemma pkof_names gd ps : map fst (map (pkof P gd) ps) = map fst ps.
  Proof. rewrite map_map. apply map_ext. now intros [p k]. Qed.

  Section One.
    Variables (A B : fmap) (W : ploc -> Prop) (d g : nat) (gd : pfn) (bs1 bs2 : list pbind).
    Hypothesis Eg : plook g P = Some gd.
    Hypothesis ND : NoDup (map fst (fn_params gd)).
    Hypothesis HR : rbs P A B W d gd (fn_params gd) bs1 bs2.
    Hypothesis HW : forall l, W l -> ~ frozen B l.
    Hypothesis Hst : stat P A B d.

    Let names := map fst (fn_params gd).
    Definition A1 : fmap := fun a z => A a z \/
      exists p, a = LP (S d) g p /\ pcopy P g p /\ plook p (combine (map fst (fn_params gd)) bs1) = Some (BVal z).
    Definition B1 : fmap := fun b z => B b z \/
      exists p, b = LP (S d) g p /\ pcopy P g p /\ plook p (combine (map fst (fn_params gd)) bs2) = Some (BVal z).

    Lemma pcopy_in p : pcopy P g p -> In (p, KCopy) (fn_params gd) /\ promotable P gd p KCopy = true.
    Proof. intros (fd & E & H). rewrite Eg in E. injection E as <-. exact H. Qed.

    Lemma in_names p : In p (map fst (fn_params gd)) -> exists k, In (p, k) (fn_params gd).
    Proof. intros H. apply in_map_iff in H. destruct H as [[q k] [<- H]]. now exists k. Qed.

    Lemma outer_S l : outer d l -> outer (S d) l.
    Proof. destruct l; cbn; auto. Qed.

    Lemma outer_before l : outer d l -> before (S d) l.
    Proof. destruct l; cbn; auto with arith; lia. Qed.

    Lemma deep_outer l : deep d l -> outer d l.
    Proof. destruct l; cbn; easy. Qed.

    Lemma sub_B : sub B B1.
    Proof. intros l z H. now left. Qed.

    Lemma pair_A1 l1 l2 : pair_rel P A B l1 l2 -> pair_rel P A1 B1 l1 l2.
    Proof. intros [H | (z & Ha & Hb)]; [now left|]. right. exists z. split; now left. Qed.

    Lemma stat1 : stat P A1 B1 (S d).
    Proof.
      destruct Hst as [HA HB]. split.
      - intros a z [H | (p & -> & H & _)].
        + destruct (HA a z H) as [H1 H2]. split; [exact H1|]. destruct a; cbn in *; auto.
        + split; [exact H|]. cbn. lia.
      - intros b z [H | (p & -> & H & _)].
        + specialize (HB b z H). destruct b; cbn in *; auto.
        + cbn. lia.
    Qed.

    Lemma inv1 s1 s2 : inv P A B s1 s2 ->
      inv P A1 B1 (penter_st (S d) g gd bs1 s1) (penter_st (S d) g (promote_fn P gd) bs2 s2).
    Proof.
      intros (I1 & I2 & I3 & I4). unfold inv, penter_st. cbn [p_out p_sto]. rewrite promote_params.
      refine (conj I1 (conj _ (conj _ _))).
      - intros l Hl. specialize (I2 l Hl). unfold sto_of. rewrite pkof_names.
        destruct l as [x|d' f' x|d' f' p]; [exact I2|now destruct (Nat.eqb d' (S d) && Nat.eqb f' g)|].
        destruct (Nat.eqb d' (S d) && Nat.eqb f' g) eqn:K; [|exact I2].
        apply andb_true_iff in K. destruct K as [_ K]. apply Nat.eqb_eq in K. subst f'.
        destruct (in_dec Nat.eq_dec p (map fst (fn_params gd))) as [Hin|Hin].
        + destruct (in_names p Hin) as [k Hk]. destruct (rbs_look _ _ _ _ _ _ _ _ HR ND p k Hk) as (b1 & b2 & L1 & L2 & Hb).
          rewrite L1, L2. destruct k; cbn [rb] in Hb.
          * destruct Hb as (z & -> & [-> | (Pr & _)]); [reflexivity|].
            exfalso. apply Hl. exists gd. now repeat split.
          * destruct Hb as [(z & -> & ->) | (l1 & l2 & -> & -> & _)]; [reflexivity|exact I2].
          * destruct Hb as [(z & -> & ->) | (l1 & l2 & -> & -> & _)]; [reflexivity|exact I2].
        + rewrite !combine_none by exact Hin. exact I2.
      - intros a z [H | (p & -> & H & L)].
        + destruct (proj1 Hst a z H) as [_ Dp]. rewrite <- (I3 a z H). unfold sto_of.
          destruct a as [x|d' f' x|d' f' p]; [reflexivity| |]; cbn in Dp;
            destruct (Nat.eqb_spec d' (S d)); [lia|reflexivity|lia|reflexivity].
        + unfold sto_of. rewrite !Nat.eqb_refl. cbn [andb]. now rewrite L.
      - intros b z [H | (p & -> & H & L)].
        + pose proof (proj2 Hst b z H) as Dp. rewrite <- (I4 b z H). unfold sto_of.
          destruct b as [x|d' f' x|d' f' p]; [reflexivity| |]; cbn in Dp;
            destruct (Nat.eqb_spec d' (S d)); [lia|reflexivity|lia|reflexivity].
        + unfold sto_of. rewrite !Nat.eqb_refl, pkof_names. cbn [andb]. now rewrite L.
    Qed.

    Lemma env1 : envrel P gd (penter (S d) g gd bs1) (penter (S d) g (promote_fn P gd) bs2) A1 B1.
    Proof.
      unfold envrel, penter. cbn [e_d e_f e_pen]. unfold pen_of. rewrite promote_params, pkof_names.
      refine (conj _ (conj _ _)).
      - intros p. destruct (in_dec Nat.eq_dec p (map fst (fn_params gd))) as [Hin|Hin].
        + destruct (in_names p Hin) as [k Hk]. destruct (rbs_look _ _ _ _ _ _ _ _ HR ND p k Hk) as (b1 & b2 & L1 & L2 & Hb).
          rewrite L1, L2.
          assert (Slot : ~ pcopy P g p -> pair_rel P A1 B1 (LP (S d) g p) (LP (S d) g p) /\
                    outer (S d) (LP (S d) g p) /\ outer (S d) (LP (S d) g p)).
          { intros N. split; [left; split; [reflexivity|exact N]|]. cbn. lia. }
          assert (NotC : k <> KCopy -> ~ pcopy P g p).
          { intros N C. apply pcopy_in in C. destruct C as [C _]. apply N. exact (nodup_kind _ p k KCopy ND Hk C). }
          destruct k; cbn [rb] in Hb.
          * destruct Hb as (z & -> & Hb).
            destruct (promotable P gd p KCopy) eqn:Pr.
            -- assert (PC : pcopy P g p) by (exists gd; now repeat split).
               destruct Hb as [-> | (_ & l & -> & Hl)].
               ++ split; [|cbn; lia]. right. exists z. split; right; exists p; auto.
               ++ split; [|split; [cbn; lia|]].
                  ** right. exists z. split; [right; exists p; auto|now left].
                  ** apply outer_S, deep_outer. exact (proj2 Hst _ _ Hl).
            -- destruct Hb as [-> | (K & _)]; [|congruence]. apply Slot.
               intros C. apply pcopy_in in C. destruct C as [_ C]. congruence.
          * destruct Hb as [(z & -> & ->) | (l1 & l2 & -> & -> & Hp & O1 & O2 & _)].
            -- apply Slot, NotC. discriminate.
            -- split; [now apply pair_A1|]. split; now apply outer_S.
          * destruct Hb as [(z & -> & ->) | (l1 & l2 & -> & -> & Hp & O1 & O2 & _)].
            -- apply Slot, NotC. discriminate.
            -- split; [now apply pair_A1|]. split; now apply outer_S.
        + rewrite !combine_none by exact Hin. split; [|cbn; lia]. left. split; [reflexivity|].
          intros C. apply pcopy_in in C. apply Hin. exact (in_map fst _ _ (proj1 C)).
      - intros p Hk. destruct (rbs_look _ _ _ _ _ _ _ _ HR ND p _ Hk) as (b1 & b2 & L1 & L2 & z & -> & Hb).
        rewrite L2. destruct (promotable P gd p KCopy) eqn:Pr.
        + assert (PC : pcopy P g p) by (exists gd; now repeat split).
          destruct Hb as [-> | (_ & l & -> & Hl)]; exists z; [right; exists p; auto|now left].
        + destruct Hb as [-> | (K & _)]; [reflexivity|congruence].
      - intros p Hk. destruct (rbs_look _ _ _ _ _ _ _ _ HR ND p _ Hk) as (b1 & b2 & L1 & L2 & Hb).
        rewrite L2. cbn [rb] in Hb. destruct Hb as [(z & -> & ->) | (l1 & l2 & -> & -> & Hp & O1 & O2 & _)]; [now left|].
        right. now apply outer_before.
    Qed.

    Lemma wok1 v : wshape P gd v ->
      wok P (penter (S d) g gd bs1) (penter (S d) g (promote_fn P gd) bs2) B1 v.
    Proof.
      intros Hs. unfold wok. destruct v as [x|x|p]; cbn [vloc penter e_d e_f e_pen].
      - refine (conj eq_refl (conj (fun H => H) _)). intros [z [H | (p & E & _)]]; [|discriminate].
        exact (proj2 Hst _ _ H).
      - refine (conj eq_refl (conj (fun H => H) _)). intros [z [H | (p & E & _)]]; [|discriminate].
        pose proof (proj2 Hst _ _ H) as K. cbn in K. lia.
      - unfold pen_of. rewrite promote_params, pkof_names.
        assert (Slot : ~ pcopy P g p -> ~ shadow P (LP (S d) g p) /\ ~ frozen B1 (LP (S d) g p)).
        { intros N. split; [exact N|]. intros [z [H | (q & E & C & _)]].
          - pose proof (proj2 Hst _ _ H) as K. cbn in K. lia.
          - injection E as ->. contradiction. }
        destruct Hs as [Hk | [Hk Np]];
          destruct (rbs_look _ _ _ _ _ _ _ _ HR ND p _ Hk) as (b1 & b2 & L1 & L2 & Hb); rewrite L1, L2; cbn [rb] in Hb.
        + assert (NC : ~ pcopy P g p).
          { intros C. apply pcopy_in in C. pose proof (nodup_kind _ p _ _ ND Hk (proj1 C)). discriminate. }
          destruct Hb as [(z & -> & ->) | (l1 & l2 & -> & -> & Hp & O1 & O2 & K)].
          * split; [reflexivity|]. now apply Slot.
          * destruct (K eq_refl) as (-> & Ns & Wl). refine (conj eq_refl (conj Ns _)).
            intros [z [H | (q & E & _)]]; [apply (HW l2 Wl); now exists z|]. subst l2. cbn in O2. lia.
        + assert (NC : ~ pcopy P g p) by (intros C; apply pcopy_in in C; destruct C; congruence).
          destruct Hb as (z & -> & [-> | (K & _)]); [|congruence]. split; [reflexivity|]. now apply Slot.
    Qed.
  End One.

  Hypothesis HN : forall f fd, plook f P = Some fd -> NoDup (map fst (fn_params fd)).
  Hypothesis HS : forall f fd, plook f P = Some fd -> sok3 P fd (fn_body fd).

  Lemma call_rel3 n : forall A B W d g gd bs1 bs2 s1 s2,
    plook g P = Some gd -> rbs P A B W d gd (fn_params gd) bs1 bs2 -> (forall l, W l -> ~ frozen B l) ->
    stat P A B d -> inv P A B s1 s2 ->
    prel P A B eq (pcall P n d g gd bs1 s1) (pcall (Q2 P) n d g (promote_fn P gd) bs2 s2).
  Proof.
    induction n as [|n IH]; intros A B W d g gd bs1 bs2 s1 s2 Eg HR HW Hst Hi; cbn [pcall]; [constructor|].
    change (fn_body (promote_fn P gd)) with (fn_body gd).
    pose proof (HN g gd Eg) as ND.
    assert (R : psrel P (A1 A d g gd bs1) (B1 B d g gd bs2)
      (pexec P (pcall P n) n (penter (S d) g gd bs1) (fn_body gd) (penter_st (S d) g gd bs1 s1))
      (pexec (Q2 P) (pcall (Q2 P) n) n (penter (S d) g (promote_fn P gd) bs2) (fn_body gd)
         (penter_st (S d) g (promote_fn P gd) bs2 s2))).
    { apply (exec_rel3 P (pcall P n) (pcall (Q2 P) n) IH gd
               (penter (S d) g gd bs1) (penter (S d) g (promote_fn P gd) bs2) eq_refl eq_refl (A1 A d g gd bs1)).
      - now apply env1 with W.
      - now apply stat1.
      - exact (HS g gd Eg).
      - intros v Hv. apply wok1 with A W; auto. exact (proj2 (HS g gd Eg) v Hv).
      - now apply inv1 with W. }
    assert (Back : forall t1 t2, inv P (A1 A d g gd bs1) (B1 B d g gd bs2) t1 t2 -> inv P A B t1 t2).
    { intros t1 t2 (I1 & I2 & I3 & I4). refine (conj I1 (conj I2 (conj _ _))).
      - intros a z Ha. apply I3. now left.
      - intros b z Hb. apply I4. now left. }
    destruct R as [t1 t2 Ht|t1 t2 z Ht|t1 t2 Ht| |]; constructor; auto.
  Qed.
End Entry.

Lemma modified_not_promotable P fd p k : In (VP p) (swr P (fn_body fd)) -> promotable P fd p k = false.
Proof.
  intros H. destruct k; cbn [promotable]; auto; apply andb_false_iff; right; apply negb_false_iff, memb_spec;
    unfold modified; apply in_flat_map; exists (VP p); (split; [exact H|now left]).
Qed.

Theorem promotion_preserves P : well_formed P -> promotion_safe P -> same_behaviour P (promote P).
Proof.
  intros WF PS n main fd globals E Emp. unfold prun. fold (Q2 P). rewrite plook_Q2, E. cbn [promote_fn fn_params].
  rewrite Emp. cbn [map length Nat.eqb].
  assert (HN : forall f fd, plook f P = Some fd -> NoDup (map fst (fn_params fd))).
  { intros f fd' E'. exact (proj1 (WF f fd' (plook_In f P fd' E'))). }
  assert (HS : forall f fd, plook f P = Some fd -> sok3 P fd (fn_body fd)).
  { intros f fd' E'. pose proof (plook_In f P fd' E') as Hin. destruct (WF f fd' Hin) as (_ & CF & WR). split.
    - intros [[m g] args] Hc. destruct (CF _ Hc) as (gd & Eg & L). cbn in Eg, L.
      exists gd. refine (conj Eg (conj L _)). intros i p u H1 H2 H3. exact (PS f fd' m g args gd p i u Hin Hc Eg H1 H2 H3).
    - intros [x|x|p] Hv; [exact Logic.I|exact Logic.I|]. unfold wshape. destruct (WR p Hv) as (k & Hk & Nk). destruct k; [right|congruence|now left].
      split; [exact Hk|]. now apply modified_not_promotable. }
  set (s0 := PSt _ _).
  assert (R : prel P (fun _ _ => False) (fun _ _ => False) eq
                (pcall P n 0 main fd [] s0) (pcall (Q2 P) n 0 main (promote_fn P fd) [] s0)).
  { apply call_rel3 with (W := fun _ => False); auto.
    - rewrite Emp. constructor.
    - split; intros ? ? [].
    - refine (conj eq_refl (conj (fun l _ => eq_refl) (conj _ _))); intros ? ? []. }
  assert (SW : forall t1 t2, inv P (fun _ _ => False) (fun _ _ => False) t1 t2 -> same_world t1 t2).
  { intros t1 t2 (I1 & I2 & _). split; [exact I1|]. intros g. apply I2. intros []. }
  destruct R as [t1 t2 a b Ht ->|t1 t2 Ht| |]; cbn; auto.
Qed.

(* ------------------------------------------------------------------ *)
(** ** Both changes *)

Lemma promote_look P f : plook f (promote P) = match plook f P with Some fd => Some (promote_fn P fd) | None => None end.
Proof. exact (plook_Q2 P f). Qed.

Lemma promote_calls P : pcalls (promote P) = pcalls P.
Proof.
  unfold pcalls, promote. rewrite !flat_map_concat_map, map_map. f_equal. apply map_ext. now intros [f fd].
Qed.

Lemma promote_un P f : un (promote P) f = un P f.
Proof.
  unfold un. rewrite promote_look. destruct (plook f P) as [fd|]; [|reflexivity].
  unfold unused, uses_effects. rewrite promote_calls. cbn [promote_fn fn_fixed fn_overloads fn_params fn_body].
  destruct (fn_fixed fd); [reflexivity|]. destruct (1 <? fn_overloads fd); [reflexivity|].
  destruct (existsb _ _); [reflexivity|]. rewrite map_length. apply filter_ext. intros i.
  rewrite nth_error_map. now destruct (nth_error (fn_params fd) i) as [[p k]|].
Qed.

Lemma promote_rank P f : rank_of f (promote P) = rank_of f P.
Proof.
  unfold promote. generalize P at 1. intros P0. induction P as [|[g fd] P' IH]; cbn; [reflexivity|].
  destruct (Nat.eqb f g); [reflexivity|]. now rewrite IH.
Qed.

Lemma promote_removal_safe P : removal_safe P -> removal_safe (promote P).
Proof.
  intros H m g args Hin. rewrite promote_calls in Hin. destruct (H m g args Hin) as [H1 H2]. rewrite promote_un. split.
  - exact H1.
  - intros N a m' h args' Ha Hh. rewrite promote_un, !promote_rank. exact (H2 N a m' h args' Ha Hh).
Qed.

Lemma inout_promote P gd args v : forall ps,
  In v (inout_direct (map (pkof P gd) ps) args) -> In v (inout_direct ps args).
Proof.
  revert v. induction args as [|a args IH]; intros v [|[p k] ps]; cbn [map combine inout_direct flat_map]; auto.
  intros H. apply in_app_or in H. apply in_or_app. destruct H as [H | H]; [left|right; now apply IH].
  cbn [pkof] in H. destruct (promotable P gd p k) eqn:E; [|exact H]. now destruct k, a.
Qed.

Lemma ewr_promote P e v : In v (ewr (promote P) e) -> In v (ewr P e).
Proof.
  induction e as [z|w|a b IHa IHb|a b IHa IHb|m f args IH] using pexpr_ind'; cbn [ewr]; auto.
  - rewrite !in_app_iff. tauto.
  - rewrite !in_app_iff. tauto.
  - rewrite promote_look, !in_app_iff. intros [H | H].
    + left. destruct (plook f P) as [gd|]; [|exact H]. now apply inout_promote with P gd.
    + right. apply in_flat_map in H. destruct H as (a & Ha & Hv). apply in_flat_map. exists a. split; [exact Ha|].
      rewrite Forall_forall in IH. auto.
Qed.

Lemma swr_promote P c v : In v (swr (promote P) c) -> In v (swr P c).
Proof.
  induction c; cbn [swr In]; rewrite ?in_app_iff; intros H;
    repeat match goal with H : _ \/ _ |- _ => destruct H end; auto using ewr_promote.
Qed.

Lemma promote_well_formed P : well_formed P -> well_formed (promote P).
Proof.
  intros WF f fd Hin. unfold promote in Hin. apply in_map_iff in Hin. destruct Hin as ([g gd] & E & Hin).
  injection E as <- <-. destruct (WF g gd Hin) as (ND & CF & WR). cbn [promote_fn fn_params fn_body].
  refine (conj _ (conj _ _)).
  - change (map _ (fn_params gd)) with (map (pkof P gd) (fn_params gd)). now rewrite pkof_names.
  - intros c Hc. destruct (CF c Hc) as (hd & Eh & L). exists (promote_fn P hd). rewrite promote_look, Eh. split; [reflexivity|].
    cbn [promote_fn fn_params]. now rewrite map_length.
  - intros p Hp. apply swr_promote in Hp. destruct (WR p Hp) as (k & Hk & Nk). exists k. split; [|exact Nk].
    apply in_map_iff. exists (p, k). split; [|exact Hk]. now rewrite (modified_not_promotable P gd p k Hp).
Qed.

Lemma same_obs_trans a b c : same_obs a b -> same_obs b c -> same_obs a c.
Proof.
  unfold same_obs, same_world. destruct a, b, c; try easy.
  - intros (-> & -> & H) (-> & -> & K). repeat split. intros g. now rewrite H.
  - intros (-> & H) (-> & K). repeat split. intros g. now rewrite H.
Qed.

Theorem optimize_preserves P : well_formed P -> promotion_safe P -> removal_safe P ->
  same_behaviour P (optimize_params P).
Proof.
  intros WF PS RS n main fd globals E Emp. apply same_obs_trans with (prun (promote P) n main globals).
  - now apply promotion_preserves with fd.
  - unfold optimize_params. apply (removal_preserves (promote P) (promote_well_formed P WF) (promote_removal_safe P RS)
      n main (promote_fn P fd)).
    + now rewrite promote_look, E.
    + cbn [promote_fn fn_params]. now rewrite Emp.
Qed.
