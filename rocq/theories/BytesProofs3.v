(** Proof of C27: the concrete machine refines the abstract one. *)
From Verif Require Import Base BytesModel BytesSpec.
Open Scope Z_scope.

Lemma upd_length {A} (l : list A) k a : length (upd l k a) = length l.
Proof. revert k. induction l as [|x l IH]; intros [|k]; cbn; auto. Qed.
Lemma upd_same {A} (l : list A) k a : (k < length l)%nat -> nth_error (upd l k a) k = Some a.
Proof. revert k. induction l as [|x l IH]; intros [|k] H; cbn in *; try lia; auto. apply IH. lia. Qed.
Lemma upd_other {A} (l : list A) k j a : j <> k -> nth_error (upd l k a) j = nth_error l j.
Proof. revert k j. induction l as [|x l IH]; intros [|k] [|j] H; cbn; auto; try congruence. Qed.
Lemma nth_error_upd {A} (l : list A) k a j :
  nth_error (upd l k a) j = if Nat.eqb j k then (if Nat.ltb k (length l) then Some a else None) else nth_error l j.
Proof.
  destruct (Nat.eqb_spec j k) as [->|N]; [|apply upd_other; exact N].
  destruct (Nat.ltb_spec k (length l)); [apply upd_same; assumption|]. apply nth_error_None. rewrite upd_length. lia.
Qed.
Lemma nth_error_snoc {A} (l : list A) a j :
  nth_error (l ++ [a]) j = if Nat.eqb j (length l) then Some a else nth_error l j.
Proof.
  destruct (Nat.eqb_spec j (length l)) as [->|N].
  - rewrite nth_error_app2, Nat.sub_diag by lia. reflexivity.
  - destruct (Nat.lt_ge_cases j (length l)); [apply nth_error_app1; assumption|].
    rewrite (proj2 (nth_error_None l j)) by lia. apply nth_error_None. rewrite app_length. cbn. lia.
Qed.

Lemma Forall2_impl' {A B} (P Q : A -> B -> Prop) l1 l2 : (forall a b, P a b -> Q a b) -> Forall2 P l1 l2 -> Forall2 Q l1 l2.
Proof. intros H F. induction F; constructor; auto. Qed.

(** [tbl] records for every control block which object and which of its epochs it was created for. *)
Section Rel.
Variable tbl : list (nat * nat).

Definition obj_rel (o : nat) (x : option bobj) (y : option aobj) : Prop :=
  match x, y with
  | None, None => True
  | Some b, Some a => b_data b = a_data a /\
      match b_ctl b with
      | Some c => nth_error tbl c = Some (o, a_epoch a)
      | None => ~ In (o, a_epoch a) tbl
      end /\ (forall e, In (o, e) tbl -> (e <= a_epoch a)%nat)
  | _, _ => False
  end.
Definition it_rel (x : biter) (y : aiter) : Prop :=
  exists c, bi_ref x = Some (c, ai_obj y) /\ nth_error tbl c = Some (ai_obj y, ai_epoch y) /\ bi_index x = ai_index y /\
            0 <= ai_index y.
End Rel.

Record rel (tbl : list (nat * nat)) (m : bmach) (a : amach) : Prop := {
  r_len : length (bs_objs (bm_st m)) = length (am_objs a);
  r_objs : forall o x y, nth_error (bs_objs (bm_st m)) o = Some x -> nth_error (am_objs a) o = Some y -> obj_rel tbl o x y;
  r_tbl : length tbl = bs_next (bm_st m);
  r_nodup : NoDup tbl;
  r_known : forall o e, In (o, e) tbl -> (o < length (am_objs a))%nat;
  r_its : Forall2 (it_rel tbl) (bm_its m) (am_its a)
}.

Lemma rel_init : rel [] bm_init am_init.
Proof. constructor; cbn; auto; try constructor; intros; try contradiction. destruct o; discriminate. Qed.

Lemma bget_some st o b : bget st o = Some b <-> nth_error (bs_objs st) o = Some (Some b).
Proof. unfold bget. destruct (nth_error (bs_objs st) o) as [[x|]|]; split; intros H; congruence. Qed.
Lemma aget_some m o b : aget m o = Some b <-> nth_error (am_objs m) o = Some (Some b).
Proof. unfold aget. destruct (nth_error (am_objs m) o) as [[x|]|]; split; intros H; congruence. Qed.

Section WithRel.
Context {tbl : list (nat * nat)} {m : bmach} {a : amach} (R : rel tbl m a).

Lemma rel_get o x : aget a o = Some x -> exists b, bget (bm_st m) o = Some b /\ b_data b = a_data x /\
  match b_ctl b with
  | Some c => nth_error tbl c = Some (o, a_epoch x)
  | None => ~ In (o, a_epoch x) tbl
  end /\ (forall e, In (o, e) tbl -> (e <= a_epoch x)%nat).
Proof.
  intros H. apply aget_some in H. assert (L : (o < length (bs_objs (bm_st m)))%nat).
  { rewrite (r_len _ _ _ R). apply nth_error_Some. congruence. }
  apply nth_error_Some in L. destruct (nth_error (bs_objs (bm_st m)) o) as [y|] eqn:E; [|congruence].
  pose proof (r_objs _ _ _ R o y _ E H) as O. destruct y as [b|]; cbn in O; [|contradiction].
  exists b. split; [apply bget_some; exact E|exact O].
Qed.

Lemma rel_get_none o : aget a o = None -> bget (bm_st m) o = None.
Proof.
  intros H. unfold aget in H. unfold bget. destruct (nth_error (bs_objs (bm_st m)) o) as [[b|]|] eqn:E; auto.
  destruct (nth_error (am_objs a) o) as [y|] eqn:E2.
  - pose proof (r_objs _ _ _ R o _ _ E E2) as O. destruct y; [discriminate|]. cbn in O. contradiction.
  - apply nth_error_None in E2. rewrite <- (r_len _ _ _ R) in E2. apply nth_error_None in E2. congruence.
Qed.

Lemma rel_it k : (k < length (am_its a))%nat -> it_rel tbl (bm_it m k) (nth k (am_its a) (mkAI 0 0 0)).
Proof.
  intros H. pose proof (r_its _ _ _ R) as F. unfold bm_it. revert k H. induction F as [|x y l l' Hxy F IH]; intros k H; [cbn in H; lia|].
  destruct k as [|k]; cbn; [exact Hxy|]. apply IH. cbn in H. lia.
Qed.

(** A control block is alive iff the object still is in the epoch it was made for. *)
Lemma alive_iff c o e : nth_error tbl c = Some (o, e) ->
  alive_ctl (bm_st m) c = match aget a o with Some x => Nat.eqb (a_epoch x) e | None => false end.
Proof.
  intros Hc. apply eq_true_iff_eq. unfold alive_ctl. rewrite existsb_exists. split.
  - intros (b & Hin & Hb). destruct b as [b|]; [|discriminate]. destruct (b_ctl b) as [c'|] eqn:Ec; [|discriminate].
    apply Nat.eqb_eq in Hb. subst c'. apply In_nth_error in Hin. destruct Hin as [o' Ho'].
    assert (L : (o' < length (am_objs a))%nat) by (rewrite <- (r_len _ _ _ R); apply nth_error_Some; congruence).
    apply nth_error_Some in L. destruct (nth_error (am_objs a) o') as [y|] eqn:Ey; [|congruence].
    pose proof (r_objs _ _ _ R o' _ _ Ho' Ey) as O. destruct y as [x|]; cbn in O; [|contradiction].
    rewrite Ec in O. destruct O as (_ & O & _). rewrite Hc in O. injection O as -> ->.
    apply aget_some in Ey. rewrite Ey. apply Nat.eqb_refl.
  - destruct (aget a o) as [x|] eqn:Ex; [|discriminate]. intros E. apply Nat.eqb_eq in E. subst e.
    destruct (rel_get o x Ex) as (b & Hb & _ & Hctl & _). apply bget_some in Hb. exists (Some b). split; [apply nth_error_In in Hb; exact Hb|].
    destruct (b_ctl b) as [c'|] eqn:Ec.
    + apply Nat.eqb_eq. pose proof (r_nodup _ _ _ R) as ND. rewrite NoDup_nth_error in ND. apply ND; [apply nth_error_Some; congruence|congruence].
    + exfalso. apply Hctl. apply nth_error_In in Hc. exact Hc.
Qed.

Lemma ref_eq_iff x1 y1 x2 y2 : it_rel tbl x1 y1 -> it_rel tbl x2 y2 -> ref_eqb (bi_ref x1) (bi_ref x2) = same_target y1 y2.
Proof.
  intros (c1 & E1 & T1 & _) (c2 & E2 & T2 & _). rewrite E1, E2. cbn [ref_eqb]. unfold same_target.
  apply eq_true_iff_eq. rewrite Nat.eqb_eq, andb_true_iff, !Nat.eqb_eq. split.
  - intros ->. rewrite T1 in T2. injection T2 as -> ->. auto.
  - intros [A B]. pose proof (r_nodup _ _ _ R) as ND. rewrite NoDup_nth_error in ND. apply ND; [apply nth_error_Some; congruence|congruence].
Qed.

Lemma deref_sim x y : it_rel tbl x y -> bderef (bm_st m) x = aderef a y.
Proof.
  intros (c & E & T & I & Hi). unfold bderef, bderef_data, aderef. rewrite E, (alive_iff c _ _ T).
  destruct (aget a (ai_obj y)) as [z|] eqn:Ez; [|reflexivity]. destruct (Nat.eqb (a_epoch z) (ai_epoch y)); [|reflexivity].
  destruct (rel_get _ _ Ez) as (b & -> & Hd & _). cbn [bind]. rewrite I, Hd. destruct (Z.leb_spec (blen (a_data z)) (ai_index y)) as [L|L].
  - rewrite (proj2 (nth_error_None _ _)); [reflexivity|]. unfold blen in L. lia.
  - destruct (nth_error (a_data z) (Z.to_nat (ai_index y))) eqn:En; [reflexivity|]. apply nth_error_None in En. unfold blen in L. lia.
Qed.

(** Making a reference. *)
Lemma ref_sim o x : aget a o = Some x -> exists st c tbl', bref (bm_st m) o = Ok (st, c) /\ rel tbl' (mkBM st (bm_its m)) a /\
  nth_error tbl' c = Some (o, a_epoch x) /\ (forall p q, it_rel tbl p q -> it_rel tbl' p q).
Proof.
  intros Hx. destruct (rel_get o x Hx) as (b & Hb & Hd & Hc & He). unfold bref. rewrite Hb.
  destruct (b_ctl b) as [c|] eqn:Ec.
  - exists (bm_st m), c, tbl. split; [reflexivity|]. destruct m as [st its]. split; [exact R|]. auto.
  - set (st := bm_st m) in *. exists (mkBS (upd (bs_objs st) o (Some (mkBObj (b_data b) (Some (bs_next st))))) (S (bs_next st))), (bs_next st).
    exists (tbl ++ [(o, a_epoch x)]). split; [reflexivity|].
    assert (Ext : forall c p, nth_error tbl c = Some p -> nth_error (tbl ++ [(o, a_epoch x)]) c = Some p).
    { intros c p H. rewrite nth_error_app1; [exact H|]. apply nth_error_Some. congruence. }
    assert (It : forall p q, it_rel tbl p q -> it_rel (tbl ++ [(o, a_epoch x)]) p q).
    { intros p q (c & A1 & A2 & A3). exists c. auto. }
    assert (Last : nth_error (tbl ++ [(o, a_epoch x)]) (bs_next st) = Some (o, a_epoch x)).
    { unfold st. rewrite <- (r_tbl _ _ _ R). rewrite nth_error_app2, Nat.sub_diag by lia. reflexivity. }
    split; [|split; [exact Last|exact It]]. constructor.
    + cbn. rewrite upd_length. apply (r_len _ _ _ R).
    + cbn [bm_st bs_objs]. intros o' x' y' E1 E2. rewrite nth_error_upd in E1. destruct (Nat.eqb_spec o' o) as [->|N].
      * apply aget_some in Hx. rewrite Hx in E2. injection E2 as <-. destruct (Nat.ltb _ _); [|discriminate]. injection E1 as <-.
        cbn. split; [exact Hd|]. split; [exact Last|]. intros e Hin. apply in_app_or in Hin. destruct Hin as [Hin|[Hin|[]]]; [auto|].
        injection Hin as ->. lia.
      * pose proof (r_objs _ _ _ R o' _ _ E1 E2) as O. destruct x' as [bx|], y' as [ay|]; cbn in *; auto. destruct O as (O1 & O2 & O3).
        split; [exact O1|]. split.
        -- destruct (b_ctl bx); [apply Ext; exact O2|]. intros Hin. apply in_app_or in Hin. destruct Hin as [Hin|[Hin|[]]]; [auto|congruence].
        -- intros e Hin. apply in_app_or in Hin. destruct Hin as [Hin|[Hin|[]]]; [auto|congruence].
    + cbn. rewrite app_length. cbn. rewrite (r_tbl _ _ _ R). fold st. lia.
    + apply NoDup_snoc; [apply (r_nodup _ _ _ R)|exact Hc].
    + intros o' e Hin. apply in_app_or in Hin. destruct Hin as [Hin|[Hin|[]]]; [apply (r_known _ _ _ R o' e Hin)|].
      injection Hin as <- <-. apply aget_some in Hx. apply nth_error_Some. congruence.
    + cbn. eapply Forall2_impl'; [|apply (r_its _ _ _ R)]. intros; apply It; assumption.
Qed.

Lemma at_sim o x i : aget a o = Some x -> 0 <= i -> exists st it tbl', bat (bm_st m) o i = Ok (st, it) /\
  rel tbl' (mkBM st (bm_its m)) a /\ it_rel tbl' it (mkAI o (a_epoch x) i) /\ bi_index it = i /\
  (forall p q, it_rel tbl p q -> it_rel tbl' p q).
Proof.
  intros Hx Hi. destruct (ref_sim o x Hx) as (st & c & tbl' & E & R' & T & It). unfold bat. rewrite E. cbn [bind fst snd].
  exists st, (mkBI (Some (c, o)) i), tbl'. split; [reflexivity|]. split; [exact R'|]. split; [|split; [reflexivity|exact It]].
  exists c. repeat split; auto.
Qed.
End WithRel.

(** Adding an iterator. *)
Lemma rel_add_it tbl st its objs aits it ai : rel tbl (mkBM st its) (mkAM objs aits) -> it_rel tbl it ai ->
  rel tbl (mkBM st (its ++ [it])) (mkAM objs (aits ++ [ai])).
Proof. intros R H. destruct R. constructor; auto. cbn in *. apply Forall2_app; auto. Qed.

(** Changing an object's content in place. *)
Lemma rel_put_same tbl m a o x b d : rel tbl m a -> aget a o = Some x -> bget (bm_st m) o = Some b ->
  rel tbl (mkBM (bput (bm_st m) o (Some (mkBObj d (b_ctl b)))) (bm_its m)) (aput a o (Some (mkAO d (a_epoch x)))).
Proof.
  intros R Hx Hb. destruct (rel_get R o x Hx) as (b' & Hb' & _ & Hc & He). rewrite Hb in Hb'. injection Hb' as <-. constructor.
  - cbn. rewrite !upd_length. apply (r_len _ _ _ R).
  - cbn. intros o' x' y' E1 E2. rewrite nth_error_upd in E1. rewrite nth_error_upd in E2. destruct (Nat.eqb_spec o' o) as [->|N].
    + destruct (Nat.ltb _ _); [|discriminate]. destruct (Nat.ltb _ _); [|discriminate]. injection E1 as <-. injection E2 as <-. cbn. auto.
    + apply (r_objs _ _ _ R); assumption.
  - apply (r_tbl _ _ _ R).
  - apply (r_nodup _ _ _ R).
  - cbn. rewrite upd_length. apply (r_known _ _ _ R).
  - apply (r_its _ _ _ R).
Qed.

(** Assignment: new content, control block dropped, next epoch. *)
Lemma rel_put_next tbl m a o x d : rel tbl m a -> aget a o = Some x ->
  rel tbl (mkBM (bput (bm_st m) o (Some (mkBObj d None))) (bm_its m)) (aput a o (Some (mkAO d (S (a_epoch x))))).
Proof.
  intros R Hx. destruct (rel_get R o x Hx) as (b' & Hb' & _ & Hc & He). constructor.
  - cbn. rewrite !upd_length. apply (r_len _ _ _ R).
  - cbn. intros o' x' y' E1 E2. rewrite nth_error_upd in E1. rewrite nth_error_upd in E2. destruct (Nat.eqb_spec o' o) as [->|N].
    + destruct (Nat.ltb _ _); [|discriminate]. destruct (Nat.ltb _ _); [|discriminate]. injection E1 as <-. injection E2 as <-. cbn.
      split; [reflexivity|]. split; [intros Hin; specialize (He _ Hin); lia|]. intros e Hin. specialize (He e Hin). lia.
    + apply (r_objs _ _ _ R); assumption.
  - apply (r_tbl _ _ _ R).
  - apply (r_nodup _ _ _ R).
  - cbn. rewrite upd_length. apply (r_known _ _ _ R).
  - apply (r_its _ _ _ R).
Qed.

Lemma rel_destroy tbl m a o : rel tbl m a -> rel tbl (mkBM (bput (bm_st m) o None) (bm_its m)) (aput a o None).
Proof.
  intros R. constructor.
  - cbn. rewrite !upd_length. apply (r_len _ _ _ R).
  - cbn. intros o' x' y' E1 E2. rewrite nth_error_upd in E1. rewrite nth_error_upd in E2. destruct (Nat.eqb_spec o' o) as [->|N].
    + destruct (Nat.ltb _ _); [|discriminate]. destruct (Nat.ltb _ _); [|discriminate]. injection E1 as <-. injection E2 as <-. cbn. exact I.
    + apply (r_objs _ _ _ R); assumption.
  - apply (r_tbl _ _ _ R).
  - apply (r_nodup _ _ _ R).
  - cbn. rewrite upd_length. apply (r_known _ _ _ R).
  - apply (r_its _ _ _ R).
Qed.

Lemma rel_new tbl m a d : rel tbl m a ->
  rel tbl (mkBM (bnew (bm_st m) (mkBObj d None)) (bm_its m)) (mkAM (am_objs a ++ [Some (mkAO d 0)]) (am_its a)).
Proof.
  intros R. assert (New : forall e, ~ In (length (am_objs a), e) tbl).
  { intros e Hin. pose proof (r_known _ _ _ R _ _ Hin). lia. }
  constructor.
  - cbn. rewrite !app_length. cbn. rewrite (r_len _ _ _ R). reflexivity.
  - cbn. intros o x y E1 E2. rewrite nth_error_snoc in E1. rewrite nth_error_snoc in E2. rewrite (r_len _ _ _ R) in E1.
    destruct (Nat.eqb_spec o (length (am_objs a))) as [->|N].
    + injection E1 as <-. injection E2 as <-. cbn. split; [reflexivity|]. split; [apply New|]. intros e Hin. destruct (New e Hin).
    + apply (r_objs _ _ _ R); assumption.
  - apply (r_tbl _ _ _ R).
  - apply (r_nodup _ _ _ R).
  - cbn. intros o e Hin. rewrite app_length. pose proof (r_known _ _ _ R _ _ Hin). lia.
  - apply (r_its _ _ _ R).
Qed.

Lemma bm_eta m : mkBM (bm_st m) (bm_its m) = m. Proof. destruct m; reflexivity. Qed.
Lemma am_eta m : mkAM (am_objs m) (am_its m) = m. Proof. destruct m; reflexivity. Qed.

Definition sim (rb : res (bmach * bobs)) (ra : res (amach * bobs)) (m : bmach) (a : amach) : Prop :=
  res_obs rb = res_obs ra /\ res_obs ra <> UB /\ exists tbl, rel tbl (res_state m rb) (res_state a ra).

Lemma sim_throw e m a tbl : rel tbl m a -> sim (Throw e) (Throw e) m a.
Proof. intros R. split; [reflexivity|]. split; [discriminate|]. exists tbl. exact R. Qed.
Lemma sim_same o m a tbl : rel tbl m a -> sim (Ok (m, o)) (Ok (a, o)) m a.
Proof. intros R. split; [reflexivity|]. split; [discriminate|]. exists tbl. exact R. Qed.

Lemma aget_put_other a o o' x : o' <> o -> aget (aput a o x) o' = aget a o'.
Proof. intros N. unfold aget. cbn. rewrite upd_other by exact N. reflexivity. Qed.
Lemma bput_swap st o x its : bm_st (mkBM (bput st o x) its) = bput st o x. Proof. reflexivity. Qed.

Lemma find_loop_ge n s i : i <= snd (find_loop s n i).
Proof.
  revert i. induction s as [|x s IH]; intros i; cbn [find_loop]; [cbn; lia|]. destruct (match_at _ _) as [[]|]; cbn; try lia.
  specialize (IH (i + 1)). lia.
Qed.
Lemma sub_not_ub d f t : sub d f t <> UB.
Proof. unfold sub, std_substr. destruct (_ <? _); discriminate. Qed.

Lemma step_sim tbl m a p : rel tbl m a -> bop_ok a p -> sim (bstep m p) (astep a p) m a.
Proof.
  intros R Hp. destruct p; cbn [bstep astep bop_ok] in *.
  - split; [reflexivity|]. split; [discriminate|]. exists tbl. apply rel_new. exact R.
  - destruct (aget a o) as [x|] eqn:Ex; [|congruence]. destruct (rel_get R o x Ex) as (b & -> & Hd & _).
    split; [reflexivity|]. split; [discriminate|]. exists tbl. cbn [res_state]. rewrite Hd. apply rel_new. exact R.
  - destruct (aget a o) as [x|] eqn:Ex; [|congruence]. destruct (rel_get R o x Ex) as (b & Hb & Hd & _). rewrite Hb.
    split; [reflexivity|]. split; [discriminate|]. exists tbl. cbn [res_state]. rewrite Hd.
    apply (rel_new tbl _ (aput a o (Some (mkAO rest (a_epoch x)))) (a_data x) (rel_put_same tbl m a o x b rest R Ex Hb)).
  - destruct Hp as [H1 H2]. destruct (aget a dst) as [x|] eqn:Ex; [|congruence]. destruct (aget a src) as [y|] eqn:Ey; [|congruence].
    destruct (rel_get R _ _ Ex) as (bx & -> & _). destruct (rel_get R _ _ Ey) as (b & -> & Hd & _).
    destruct (Nat.eqb dst src); [eapply sim_same; eauto|].
    split; [reflexivity|]. split; [discriminate|]. exists tbl. cbn [res_state]. rewrite Hd. apply rel_put_next; assumption.
  - destruct Hp as [H1 H2]. destruct (aget a dst) as [x|] eqn:Ex; [|congruence]. destruct (aget a src) as [y|] eqn:Ey; [|congruence].
    destruct (rel_get R _ _ Ex) as (bx & Hbx & _). rewrite Hbx. destruct (rel_get R _ _ Ey) as (b & Hb & Hd & _). rewrite Hb.
    destruct (Nat.eqb_spec dst src) as [->|N].
    + split; [reflexivity|]. split; [discriminate|]. exists tbl. cbn [res_state]. apply rel_put_next; assumption.
    + split; [reflexivity|]. split; [discriminate|]. exists tbl. cbn [res_state]. rewrite Hd.
      pose proof (rel_put_same tbl m a src y b rest R Ey Hb) as R1.
      apply (rel_put_next tbl _ _ dst x (a_data y)) in R1; [exact R1|]. rewrite aget_put_other by congruence. exact Ex.
  - destruct (aget a o) as [x|] eqn:Ex; [|congruence]. destruct (rel_get R o x Ex) as (b & Hb & Hd & _). rewrite Hb.
    split; [reflexivity|]. split; [discriminate|]. exists tbl. cbn [res_state]. rewrite Hd. apply rel_put_same; assumption.
  - destruct (aget a o) as [x|] eqn:Ex; [|congruence]. destruct (rel_get R o x Ex) as (b & Hb & Hd & _). rewrite Hb.
    split; [reflexivity|]. split; [discriminate|]. exists tbl. cbn [res_state]. apply rel_destroy; assumption.
  - destruct Hp as [H1 H2]. destruct (aget a o) as [x|] eqn:Ex; [|congruence].
    destruct (at_sim R o x i Ex (proj1 H2)) as (st & it & tbl' & -> & R' & I & _). cbn [bind fst snd].
    split; [reflexivity|]. split; [discriminate|]. exists tbl'. cbn [res_state]. apply rel_add_it; [rewrite am_eta; exact R'|exact I].
  - pose proof (rel_it R k Hp) as (c & E1 & E2 & E3 & E4). unfold badd. rewrite E3.
    set (ai := nth k (am_its a) (mkAI 0 0 0)) in *. set (i := ai_index ai + n).
    destruct (Z.ltb_spec i 0), (Z.leb_spec (2 ^ 64) i), (Z.leb_spec 0 i), (Z.ltb_spec i (2 ^ 64)); cbn [orb andb bind]; try lia;
      try (eapply sim_throw; eauto; fail).
    split; [reflexivity|]. split; [discriminate|]. exists tbl. cbn [res_state].
    apply rel_add_it; [rewrite am_eta, bm_eta; exact R|]. exists c. cbn. rewrite E1. auto.
  - rewrite (deref_sim R _ _ (rel_it R k Hp)). destruct (aderef a _) as [x|e|] eqn:E; cbn [bind rmap].
    + eapply sim_same; eauto.
    + eapply sim_throw; eauto.
    + exfalso. unfold aderef in E. destruct (aget _ _); [|discriminate]. destruct (Nat.eqb _ _); [|discriminate]. destruct (nth_error _ _); discriminate.
  - destruct Hp as [H1 H2]. pose proof (rel_it R _ H1) as I1. pose proof (rel_it R _ H2) as I2. unfold beq.
    rewrite (ref_eq_iff R _ _ _ _ I1 I2). destruct I1 as (c1 & _ & _ & -> & _), I2 as (c2 & _ & _ & -> & _).
    destruct (same_target _ _); cbn [bind]; [eapply sim_same|eapply sim_throw]; eauto.
  - destruct Hp as [H1 H2]. pose proof (rel_it R _ H1) as I1. pose proof (rel_it R _ H2) as I2. unfold blt.
    rewrite (ref_eq_iff R _ _ _ _ I1 I2). destruct I1 as (c1 & _ & _ & -> & _), I2 as (c2 & _ & _ & -> & _).
    destruct (same_target _ _); cbn [bind]; [eapply sim_same|eapply sim_throw]; eauto.
  - destruct Hp as [H1 H2]. pose proof (rel_it R _ H1) as I1. pose proof (rel_it R _ H2) as I2. unfold bdiff.
    rewrite (ref_eq_iff R _ _ _ _ I1 I2). destruct I1 as (c1 & _ & _ & -> & _), I2 as (c2 & _ & _ & -> & _).
    destruct (same_target _ _); cbn [bind]; [|eapply sim_throw; eauto].
    set (d := ai_index _ - ai_index _).
    destruct (Z.ltb_spec d 0), (Z.leb_spec (2 ^ 63) d), (Z.leb_spec 0 d), (Z.ltb_spec d (2 ^ 63)); cbn [orb andb bind]; try lia;
      first [eapply sim_same; eauto; fail|eapply sim_throw; eauto].
  - destruct Hp as (H0 & H1 & H2). destruct (aget a o) as [x|] eqn:Ex; [|congruence]. unfold bsub_it.
    destruct (rel_get R o x Ex) as (b & Hb & Hd & _). rewrite Hb.
    pose proof (rel_it R _ H1) as I1. pose proof (rel_it R _ H2) as I2. rewrite (ref_eq_iff R _ _ _ _ I1 I2).
    destruct (same_target (nth k1 _ _) (nth k2 _ _)); cbn [negb andb]; [|eapply sim_throw; eauto].
    destruct (at_sim R o x 0 Ex ltac:(lia)) as (st & it & tbl' & -> & R' & I & I0 & It). cbn [bind fst snd].
    unfold bdiff. rewrite (ref_eq_iff R' _ _ _ _ (It _ _ I1) I). rewrite I0.
    destruct (same_target (nth k1 _ _) _); cbn [bind]; [|eapply sim_throw; eauto].
    destruct I1 as (c1 & _ & _ & E1 & B1), I2 as (c2 & _ & _ & E2 & _). rewrite E1, E2, Z.sub_0_r.
    destruct (Z.ltb_spec (ai_index (nth k1 (am_its a) (mkAI 0 0 0))) 0); [lia|]. cbn [orb].
    rewrite Z.leb_antisym. destruct (ai_index (nth k1 (am_its a) (mkAI 0 0 0)) <? 2 ^ 63); cbn [negb]; [|cbn; eapply sim_throw; eauto].
    cbn [bind]. rewrite Hd. pose proof (sub_not_ub (a_data x) (ai_index (nth k1 (am_its a) (mkAI 0 0 0))) (ai_index (nth k2 (am_its a) (mkAI 0 0 0)))) as NU.
    destruct (sub _ _ _) as [d|e|]; cbn [bind rmap]; [|eapply sim_throw; eauto|congruence].
    split; [reflexivity|]. split; [discriminate|]. exists tbl'. exact R'.
  - destruct Hp as [H0 H1]. destruct (aget a o) as [x|] eqn:Ex; [|congruence]. unfold bfind.
    destruct (rel_get R o x Ex) as (b & Hb & Hd & _). rewrite Hb.
    destruct (at_sim R o x 0 Ex ltac:(lia)) as (st & it & tbl' & -> & R' & I & I0 & It). cbn [bind fst snd].
    set (s' := match option_map (bm_it m) start with Some it0 => _ | None => it end).
    set (as' := match start with Some k => if live_iter a _ then _ else _ | None => _ end).
    assert (IS : it_rel tbl' s' as').
    { unfold s', as'. destruct start as [k|]; [|exact I]. cbn [option_map]. pose proof (It _ _ (rel_it R k H1)) as IK.
      destruct IK as (c & E1 & E2 & E3 & E4). rewrite E1. pose proof (alive_iff R' c _ _ E2) as Al. cbn [bm_st] in Al. rewrite Al.
      fold (live_iter a (nth k (am_its a) (mkAI 0 0 0))). destruct (live_iter a _); [|exact I]. exists c. auto. }
    clearbody s' as'. destruct needle as [|n0 nn].
    + destruct IS as (c & E1 & E2 & E3 & E4). cbn [bind fst snd]. split; [cbn; rewrite E3; reflexivity|]. split; [discriminate|]. exists tbl'. cbn [res_state fst snd].
      apply rel_add_it; [rewrite am_eta; exact R'|]. exists c. cbn. auto.
    + unfold beq. cbn [bi_ref bi_index].
      assert (IE : it_rel tbl' (mkBI (bi_ref it) 0) (mkAI o (a_epoch x) 0)).
      { destruct I as (c & E1 & E2 & E3 & E4). exists c. cbn in *. repeat split; auto; lia. }
      pose proof (ref_eq_iff R' _ _ _ _ IS IE) as RE. cbn [bi_ref] in RE. rewrite RE.
      destruct (same_target as' _); cbn [bind]; [|eapply sim_throw; eauto].
      destruct IS as (c & E1 & E2 & E3 & E4). rewrite E3, Hd. destruct (Z.ltb_spec (blen (a_data x)) (ai_index as')); [eapply sim_throw; eauto|].
      destruct (find_loop _ _ _) as [f i] eqn:Ef. cbn [bind fst snd].
      assert (Hi : 0 <= i) by (pose proof (find_loop_ge (n0 :: nn) (skipn (Z.to_nat (ai_index as')) (a_data x)) (ai_index as')) as G; rewrite Ef in G; cbn in G; lia).
      split; [reflexivity|]. split; [discriminate|]. exists tbl'. cbn [res_state].
      apply rel_add_it; [rewrite am_eta; exact R'|]. exists c. cbn. auto.
Qed.

Lemma trace_sim ps : forall tbl m a, rel tbl m a -> bprog_ok a ps -> btrace m ps = atrace a ps /\ ~ In UB (atrace a ps).
Proof.
  induction ps as [|p ps IH]; intros tbl m a R Hp; [split; [reflexivity|intros []]|]. cbn [bprog_ok btrace atrace] in *.
  destruct Hp as [Hp Hps]. destruct (step_sim tbl m a p R Hp) as (E & U & tbl' & R'). destruct (IH tbl' _ _ R' Hps) as [IH1 IH2].
  rewrite E, IH1. split; [reflexivity|]. intros [H|H]; [congruence|auto].
Qed.
