(** Proof of C40 and C41: the concrete vector machine refines the abstract one. *)
From Verif Require Import Base BytesModel BytesSpec BytesProofs3 VecModel VecSpec.
Open Scope Z_scope.

(** * Functions on contents *)
Lemma upd_split {A} (l : list A) k a : (k < length l)%nat -> upd l k a = firstn k l ++ a :: skipn (S k) l.
Proof. revert k. induction l as [|x l IH]; intros [|k] H; cbn in *; try lia; [reflexivity|]. f_equal. apply IH. lia. Qed.
Lemma upd_id {A} (l : list A) k a : nth_error l k = Some a -> upd l k a = l.
Proof. revert k. induction l as [|x l IH]; intros [|k] H; cbn in *; try discriminate; [congruence|]. f_equal. auto. Qed.

Lemma vget_spec l i : 0 <= i -> vget l i = match nth_error l (Z.to_nat i) with Some x => Ok x | None => Throw IndexError end.
Proof.
  intros H. unfold vget, raw_get, vlen. destruct (Z.leb_spec (Z.of_nat (length l)) i) as [L|L].
  - rewrite (proj2 (nth_error_None _ _)) by lia. reflexivity.
  - destruct (nth_error l (Z.to_nat i)) eqn:E; [reflexivity|]. apply nth_error_None in E. lia.
Qed.
Lemma vfront_spec l : vfront l = match nth_error l 0 with Some x => Ok x | None => Throw IndexError end.
Proof. destruct l; reflexivity. Qed.
Lemma last_rev {A} (l : list A) d : last l d = hd d (rev l).
Proof.
  induction l as [|x l IH] using rev_ind; [reflexivity|]. rewrite last_last, rev_app_distr. reflexivity.
Qed.
Lemma vback_spec dflt l : vback dflt l = match rev l with [] => Throw IndexError | x :: _ => Ok x end.
Proof.
  unfold vback. rewrite last_rev. destruct l as [|x l]; [reflexivity|]. destruct (rev (x :: l)) eqn:E; [|reflexivity].
  apply (f_equal (@length Z)) in E. rewrite rev_length in E. discriminate.
Qed.
Lemma removelast_rev {A} (l : list A) : removelast l = rev (tl (rev l)).
Proof. induction l as [|x l IH] using rev_ind; [reflexivity|]. rewrite removelast_last, rev_app_distr. cbn. rewrite rev_involutive. reflexivity. Qed.
Lemma vpop_spec l : vpop l = match rev l with [] => Throw IndexError | _ :: r => Ok (rev r) end.
Proof.
  unfold vpop. rewrite removelast_rev. destruct l as [|x l]; [reflexivity|]. destruct (rev (x :: l)) eqn:E; [|reflexivity].
  apply (f_equal (@length Z)) in E. rewrite rev_length in E. discriminate.
Qed.
Lemma copy_range_spec l s e : 0 <= s <= e -> e <= vlen l -> copy_range l s e = Ok (firstn (Z.to_nat (e - s)) (skipn (Z.to_nat s) l)).
Proof. intros H1 H2. unfold copy_range. rewrite (proj2 (Z.leb_le _ _)), (proj2 (Z.leb_le _ _)) by lia. reflexivity. Qed.
Lemma clip_range l s e : 0 <= s <= vlen l -> vlen l <= e ->
  firstn (Z.to_nat (vlen l - s)) (skipn (Z.to_nat s) l) = firstn (Z.to_nat (e - s)) (skipn (Z.to_nat s) l).
Proof. intros H1 H2. unfold vlen in *. rewrite !firstn_all2; [reflexivity| |]; rewrite skipn_length; lia. Qed.
Lemma vsub_spec l s e : 0 <= s -> vsub l s e = Ok (elements l s e).
Proof.
  intros H. unfold vsub, elements. destruct (Z.leb_spec e s) as [L|L]; [reflexivity|]. cbn [orb].
  destruct (Z.leb_spec (vlen l) s) as [L2|L2].
  - rewrite skipn_all2 by (unfold vlen in L2; lia). rewrite firstn_nil. reflexivity.
  - destruct (Z.leb_spec (vlen l) e) as [L3|L3]; rewrite copy_range_spec by lia; [|reflexivity].
    rewrite (clip_range l s e) by lia. reflexivity.
Qed.
Lemma vsub_to_spec l e : 0 <= e -> vsub_to l e = Ok (elements l 0 e).
Proof.
  intros H. unfold vsub_to, elements. assert (0 <= vlen l) by (unfold vlen; lia).
  destruct (Z.leb_spec (vlen l) e) as [L3|L3]; rewrite copy_range_spec by lia.
  - rewrite (clip_range l 0 e) by lia. destruct (Z.leb_spec e 0) as [L|L]; [|reflexivity].
    replace e with 0 by lia. reflexivity.
  - destruct (Z.leb_spec e 0) as [L|L]; [|reflexivity]. replace e with 0 by lia. reflexivity.
Qed.
Lemma vassign_spec dflt l i x : 0 <= i < 2 ^ 64 - 1 ->
  vassign dflt l i x = if (vmax <=? i) && (Z.of_nat (length l) <=? i) then Throw LogicError else Ok (set_at dflt l (Z.to_nat i) x).
Proof.
  intros H. unfold vassign. fold (vlen l). destruct (Z.leb_spec (vlen l) i) as [L|L].
  - rewrite andb_true_r. rewrite Z.mod_small by lia. unfold resize. set (n := Z.to_nat i).
    destruct (Z.leb_spec vmax i) as [L2|L2]; destruct (Z.ltb_spec vmax (i + 1)) as [L3|L3]; try lia; cbn [bind]; [reflexivity|].
    unfold raw_set. unfold vlen in *. rewrite app_length, firstn_length, repeat_length.
    destruct (Z.ltb_spec i (Z.of_nat (Nat.min (Z.to_nat (i + 1)) (length l) + (Z.to_nat (i + 1) - length l)))) as [L4|L4]; [|lia].
    f_equal. unfold set_at. replace (Z.to_nat (i + 1)) with (S n) by lia. rewrite firstn_all2 by lia.
    rewrite upd_split by (rewrite app_length, repeat_length; lia). fold n.
    rewrite (skipn_all2 l) by lia. rewrite !firstn_app. f_equal.
    + f_equal. assert (G : forall a k, (k <= a)%nat -> firstn k (repeat dflt a) = repeat dflt k).
      { induction a as [|a IH]; intros [|k] Hk; cbn; try lia; [reflexivity..|]. f_equal. apply IH. lia. }
      rewrite !G by lia. reflexivity.
    + f_equal. apply skipn_all2. rewrite app_length, repeat_length. lia.
  - rewrite andb_false_r. cbn [bind]. unfold raw_set. rewrite (proj2 (Z.ltb_lt _ _)) by exact L. f_equal.
    unfold vlen in L. rewrite upd_split by lia. unfold set_at. rewrite firstn_app_le by lia. reflexivity.
Qed.
Lemma vinsert_spec l i x : vinsert l i x =
  if Z.of_nat (length l) <? i then Throw InvalidIterator else Ok (firstn (Z.to_nat i) l ++ x :: skipn (Z.to_nat i) l).
Proof. reflexivity. Qed.

(** * Refinement *)
Section Dflt.
Variable dflt : Z.

Section Rel.
Variable tbl : list nat. (** for every control block, the object it was made for *)
Definition vobj_rel (o : nat) (x : option vobj) (y : option (list Z)) : Prop :=
  match x, y with
  | None, None => True
  | Some b, Some l => v_data b = l /\ match v_ctl b with Some c => nth_error tbl c = Some o | None => ~ In o tbl end
  | _, _ => False
  end.
Definition vit_rel (x : viter) (y : nat * Z) : Prop :=
  exists c, vi_ref x = Some (c, fst y) /\ nth_error tbl c = Some (fst y) /\ vi_index x = snd y /\ 0 <= snd y.
End Rel.

Record vrel (tbl : list nat) (m : vmach) (a : avm) : Prop := {
  q_len : length (vs_objs (vm_st m)) = length (av_objs a);
  q_objs : forall o x y, nth_error (vs_objs (vm_st m)) o = Some x -> nth_error (av_objs a) o = Some y -> vobj_rel tbl o x y;
  q_tbl : length tbl = vs_next (vm_st m);
  q_nodup : NoDup tbl;
  q_known : forall o, In o tbl -> (o < length (av_objs a))%nat;
  q_its : Forall2 (vit_rel tbl) (vm_its m) (av_its a)
}.

Lemma vrel_init : vrel [] vm_init avm_init.
Proof. constructor; cbn; auto; try constructor; intros; try contradiction. destruct o; discriminate. Qed.

Lemma vobj_at_some st o b : vobj_at st o = Some b <-> nth_error (vs_objs st) o = Some (Some b).
Proof. unfold vobj_at. destruct (nth_error (vs_objs st) o) as [[x|]|]; split; intros H; congruence. Qed.
Lemma avget_some m o b : avget m o = Some b <-> nth_error (av_objs m) o = Some (Some b).
Proof. unfold avget. destruct (nth_error (av_objs m) o) as [[x|]|]; split; intros H; congruence. Qed.
Lemma vm_eta m : mkVM (vm_st m) (vm_its m) = m. Proof. destruct m; reflexivity. Qed.
Lemma avm_eta m : mkAVM (av_objs m) (av_its m) = m. Proof. destruct m; reflexivity. Qed.

Section WithRel.
Context {tbl : list nat} {m : vmach} {a : avm} (R : vrel tbl m a).

Lemma vrel_get o l : avget a o = Some l -> exists b, vobj_at (vm_st m) o = Some b /\ v_data b = l /\
  match v_ctl b with Some c => nth_error tbl c = Some o | None => ~ In o tbl end.
Proof.
  intros H. apply avget_some in H. assert (L : (o < length (vs_objs (vm_st m)))%nat).
  { rewrite (q_len _ _ _ R). apply nth_error_Some. congruence. }
  apply nth_error_Some in L. destruct (nth_error (vs_objs (vm_st m)) o) as [y|] eqn:E; [|congruence].
  pose proof (q_objs _ _ _ R o y _ E H) as O. destruct y as [b|]; cbn in O; [|contradiction].
  exists b. split; [apply vobj_at_some; exact E|exact O].
Qed.

Lemma vrel_it k : (k < length (av_its a))%nat -> vit_rel tbl (vm_it m k) (nth k (av_its a) (0%nat, 0)).
Proof.
  intros H. pose proof (q_its _ _ _ R) as F. unfold vm_it. revert k H. induction F as [|x y l l' Hxy F IH]; intros k H; [cbn in H; lia|].
  destruct k as [|k]; cbn; [exact Hxy|]. apply IH. cbn in H. lia.
Qed.

Lemma valive_iff c o : nth_error tbl c = Some o -> v_alive (vm_st m) c = match avget a o with Some _ => true | None => false end.
Proof.
  intros Hc. apply eq_true_iff_eq. unfold v_alive. rewrite existsb_exists. split.
  - intros (b & Hin & Hb). destruct b as [b|]; [|discriminate]. destruct (v_ctl b) as [c'|] eqn:Ec; [|discriminate].
    apply Nat.eqb_eq in Hb. subst c'. apply In_nth_error in Hin. destruct Hin as [o' Ho'].
    assert (L : (o' < length (av_objs a))%nat) by (rewrite <- (q_len _ _ _ R); apply nth_error_Some; congruence).
    apply nth_error_Some in L. destruct (nth_error (av_objs a) o') as [y|] eqn:Ey; [|congruence].
    pose proof (q_objs _ _ _ R o' _ _ Ho' Ey) as O. destruct y as [x|]; cbn in O; [|contradiction].
    rewrite Ec in O. destruct O as (_ & O). rewrite Hc in O. injection O as ->. apply avget_some in Ey. rewrite Ey. reflexivity.
  - destruct (avget a o) as [x|] eqn:Ex; [|discriminate]. intros _.
    destruct (vrel_get o x Ex) as (b & Hb & _ & Hctl). apply vobj_at_some in Hb. exists (Some b). split; [apply nth_error_In in Hb; exact Hb|].
    destruct (v_ctl b) as [c'|] eqn:Ec.
    + apply Nat.eqb_eq. pose proof (q_nodup _ _ _ R) as ND. rewrite NoDup_nth_error in ND. apply ND; [apply nth_error_Some; congruence|congruence].
    + exfalso. apply Hctl. apply nth_error_In in Hc. exact Hc.
Qed.

Lemma vref_eq_iff x1 y1 x2 y2 : vit_rel tbl x1 y1 -> vit_rel tbl x2 y2 -> ref_eqb (vi_ref x1) (vi_ref x2) = Nat.eqb (fst y1) (fst y2).
Proof.
  intros (c1 & E1 & T1 & _) (c2 & E2 & T2 & _). rewrite E1, E2. cbn [ref_eqb].
  apply eq_true_iff_eq. rewrite !Nat.eqb_eq. split.
  - intros ->. congruence.
  - intros A. pose proof (q_nodup _ _ _ R) as ND. rewrite NoDup_nth_error in ND. apply ND; [apply nth_error_Some; congruence|congruence].
Qed.

Lemma vref_sim o l : avget a o = Some l -> exists st c tbl', vref (vm_st m) o = Ok (st, c) /\ vrel tbl' (mkVM st (vm_its m)) a /\
  nth_error tbl' c = Some o.
Proof.
  intros Hx. destruct (vrel_get o l Hx) as (b & Hb & Hd & Hc). unfold vref. rewrite Hb.
  destruct (v_ctl b) as [c|] eqn:Ec.
  - exists (vm_st m), c, tbl. split; [reflexivity|]. rewrite vm_eta. auto.
  - set (st := vm_st m) in *. exists (mkVS (upd (vs_objs st) o (Some (mkVO (v_data b) (Some (vs_next st))))) (S (vs_next st))), (vs_next st).
    exists (tbl ++ [o]). split; [reflexivity|].
    assert (Ext : forall c p, nth_error tbl c = Some p -> nth_error (tbl ++ [o]) c = Some p).
    { intros c p H. rewrite nth_error_app1; [exact H|]. apply nth_error_Some. congruence. }
    assert (Last : nth_error (tbl ++ [o]) (vs_next st) = Some o).
    { unfold st. rewrite <- (q_tbl _ _ _ R). rewrite nth_error_app2, Nat.sub_diag by lia. reflexivity. }
    split; [|exact Last]. constructor.
    + cbn. rewrite upd_length. apply (q_len _ _ _ R).
    + cbn [vm_st vs_objs]. intros o' x' y' E1 E2. rewrite nth_error_upd in E1. destruct (Nat.eqb_spec o' o) as [->|N].
      * apply avget_some in Hx. rewrite Hx in E2. injection E2 as <-. destruct (Nat.ltb _ _); [|discriminate]. injection E1 as <-.
        cbn. split; [exact Hd|]. exact Last.
      * pose proof (q_objs _ _ _ R o' _ _ E1 E2) as O. destruct x' as [bx|], y' as [ay|]; cbn in *; auto. destruct O as (O1 & O2).
        split; [exact O1|]. destruct (v_ctl bx); [apply Ext; exact O2|]. intros Hin. apply in_app_or in Hin. destruct Hin as [Hin|[Hin|[]]]; [auto|congruence].
    + cbn. rewrite app_length. cbn. rewrite (q_tbl _ _ _ R). fold st. lia.
    + apply NoDup_snoc; [apply (q_nodup _ _ _ R)|exact Hc].
    + intros o' Hin. apply in_app_or in Hin. destruct Hin as [Hin|[Hin|[]]]; [apply (q_known _ _ _ R o' Hin)|].
      subst o'. apply avget_some in Hx. apply nth_error_Some. congruence.
    + cbn. eapply Forall2_impl'; [|apply (q_its _ _ _ R)]. intros x y (c & A1 & A2 & A3). exists c. auto.
Qed.
End WithRel.

Lemma vrel_add_it tbl st its objs aits it ai : vrel tbl (mkVM st its) (mkAVM objs aits) -> vit_rel tbl it ai ->
  vrel tbl (mkVM st (its ++ [it])) (mkAVM objs (aits ++ [ai])).
Proof. intros R H. destruct R. constructor; auto. cbn in *. apply Forall2_app; auto. Qed.

Lemma vrel_put tbl m a o l b d : vrel tbl m a -> avget a o = Some l -> vobj_at (vm_st m) o = Some b ->
  vrel tbl (mkVM (vput (vm_st m) o (Some (mkVO d (v_ctl b)))) (vm_its m)) (avput a o (Some d)).
Proof.
  intros R Hx Hb. destruct (vrel_get R o l Hx) as (b' & Hb' & _ & Hc). rewrite Hb in Hb'. injection Hb' as <-. constructor.
  - cbn. rewrite !upd_length. apply (q_len _ _ _ R).
  - cbn. intros o' x' y' E1 E2. rewrite nth_error_upd in E1. rewrite nth_error_upd in E2. destruct (Nat.eqb_spec o' o) as [->|N].
    + destruct (Nat.ltb _ _); [|discriminate]. destruct (Nat.ltb _ _); [|discriminate]. injection E1 as <-. injection E2 as <-. cbn. auto.
    + apply (q_objs _ _ _ R); assumption.
  - apply (q_tbl _ _ _ R).
  - apply (q_nodup _ _ _ R).
  - cbn. rewrite upd_length. apply (q_known _ _ _ R).
  - apply (q_its _ _ _ R).
Qed.
Lemma vrel_destroy tbl m a o : vrel tbl m a -> vrel tbl (mkVM (vput (vm_st m) o None) (vm_its m)) (avput a o None).
Proof.
  intros R. constructor.
  - cbn. rewrite !upd_length. apply (q_len _ _ _ R).
  - cbn. intros o' x' y' E1 E2. rewrite nth_error_upd in E1. rewrite nth_error_upd in E2. destruct (Nat.eqb_spec o' o) as [->|N].
    + destruct (Nat.ltb _ _); [|discriminate]. destruct (Nat.ltb _ _); [|discriminate]. injection E1 as <-. injection E2 as <-. cbn. exact I.
    + apply (q_objs _ _ _ R); assumption.
  - apply (q_tbl _ _ _ R).
  - apply (q_nodup _ _ _ R).
  - cbn. rewrite upd_length. apply (q_known _ _ _ R).
  - apply (q_its _ _ _ R).
Qed.
Lemma vrel_new tbl m a d : vrel tbl m a ->
  vrel tbl (mkVM (mkVS (vs_objs (vm_st m) ++ [Some (mkVO d None)]) (vs_next (vm_st m))) (vm_its m)) (mkAVM (av_objs a ++ [Some d]) (av_its a)).
Proof.
  intros R. constructor.
  - cbn. rewrite !app_length. cbn. rewrite (q_len _ _ _ R). reflexivity.
  - cbn. intros o x y E1 E2. rewrite nth_error_snoc in E1. rewrite nth_error_snoc in E2. rewrite (q_len _ _ _ R) in E1.
    destruct (Nat.eqb_spec o (length (av_objs a))) as [->|N].
    + injection E1 as <-. injection E2 as <-. cbn. split; [reflexivity|]. intros Hin. pose proof (q_known _ _ _ R _ Hin). lia.
    + apply (q_objs _ _ _ R); assumption.
  - apply (q_tbl _ _ _ R).
  - apply (q_nodup _ _ _ R).
  - cbn. intros o Hin. rewrite app_length. pose proof (q_known _ _ _ R _ Hin). lia.
  - apply (q_its _ _ _ R).
Qed.

Definition vsim (rb : res (vmach * vobs)) (ra : res (avm * vobs)) (m : vmach) (a : avm) : Prop :=
  res_obs rb = res_obs ra /\ res_obs ra <> UB /\ exists tbl, vrel tbl (res_state m rb) (res_state a ra).
Lemma vsim_throw e m a tbl : vrel tbl m a -> vsim (Throw e) (Throw e) m a.
Proof. intros R. split; [reflexivity|]. split; [discriminate|]. exists tbl. exact R. Qed.
Lemma vsim_same o m a tbl : vrel tbl m a -> vsim (Ok (m, o)) (Ok (a, o)) m a.
Proof. intros R. split; [reflexivity|]. split; [discriminate|]. exists tbl. exact R. Qed.
Lemma vsim_ok o m a m' a' tbl : vrel tbl m' a' -> vsim (Ok (m', o)) (Ok (a', o)) m a.
Proof. intros R. split; [reflexivity|]. split; [discriminate|]. exists tbl. exact R. Qed.

Lemma avget_put_other a o o' x : o' <> o -> avget (avput a o x) o' = avget a o'.
Proof. intros N. unfold avget. cbn. rewrite upd_other by exact N. reflexivity. Qed.
Lemma avput_id a o l : avget a o = Some l -> avput a o (Some l) = a.
Proof. intros H. apply avget_some in H. unfold avput. rewrite upd_id by exact H. apply avm_eta. Qed.

Ltac obj R o Hb := match goal with H : avget ?a o <> None |- _ =>
  let x := fresh "l" in let E := fresh "E" in destruct (avget a o) as [x|] eqn:E; [|congruence];
  destruct (vrel_get R o x E) as (?b & Hb & <- & _); rewrite ?Hb end.

Lemma vstep_sim tbl m a p : vrel tbl m a -> vop_ok a p -> vsim (vstep dflt m p) (avstep dflt a p) m a.
Proof.
  intros R Hp. destruct p; cbn [vstep avstep vop_ok] in *; cbv zeta.
  - eapply vsim_ok. apply vrel_new. exact R.
  - obj R o Hb. eapply vsim_ok. apply vrel_new. exact R.
  - obj R o Hb. eapply vsim_ok.
    apply (vrel_new tbl _ (avput a o (Some rest)) (v_data b) (vrel_put tbl m a o _ b rest R E Hb)).
  - destruct Hp as [H1 H2]. obj R s Hb. destruct (Nat.eqb_spec d s) as [->|N].
    + rewrite avput_id by exact E. eapply vsim_same; eauto.
    + obj R d Hd. cbn [bind]. eapply vsim_ok. eapply vrel_put; eauto.
  - destruct Hp as [H1 H2]. obj R s Hs. obj R d Hd. destruct (Nat.eqb_spec d s) as [->|N].
    + rewrite Hs in Hd. injection Hd as <-. cbn [bind]. eapply vsim_ok. eapply vrel_put; eauto.
    + eapply vsim_ok. eapply (vrel_put tbl _ _ d _ b0 (v_data b) (vrel_put tbl m a s _ b rest R E Hs)).
      * rewrite avget_put_other by congruence. exact E0.
      * cbn [vm_st]. apply vobj_at_some. cbn. rewrite upd_other by congruence. apply vobj_at_some. exact Hd.
  - obj R o Hb. cbn [bind rmap]. eapply vsim_ok. eapply vrel_put; eauto.
  - obj R o Hb. cbn [bind rmap]. eapply vsim_ok. eapply vrel_put; eauto.
  - obj R o Hb. rewrite vpop_spec. destruct (rev (v_data b)); cbn [bind rmap]; [eapply vsim_throw; eauto|]. eapply vsim_ok. eapply vrel_put; eauto.
  - obj R o Hb. rewrite vfront_spec. change (Z.to_nat 0) with 0%nat. destruct (nth_error (v_data b) 0); cbn [bind rmap]; [eapply vsim_same|eapply vsim_throw]; eauto.
  - obj R o Hb. rewrite vback_spec. destruct (rev (v_data b)); cbn [bind rmap]; [eapply vsim_throw|eapply vsim_same]; eauto.
  - obj R o Hb. cbn [bind rmap]. eapply vsim_same; eauto.
  - destruct Hp as [H1 H2]. obj R o Hb. rewrite vget_spec by lia. destruct (nth_error (v_data b) _); cbn [bind rmap]; [eapply vsim_same|eapply vsim_throw]; eauto.
  - destruct Hp as [H1 H2]. obj R o Hb. rewrite vassign_spec by lia. destruct (_ && _); cbn [bind rmap]; [eapply vsim_throw; eauto|].
    eapply vsim_ok. eapply vrel_put; eauto.
  - destruct Hp as (H1 & H2 & H3). obj R o Hb. rewrite vsub_spec by lia. cbn [bind rmap]. eapply vsim_same; eauto.
  - destruct Hp as (H1 & H2). obj R o Hb. rewrite vsub_to_spec by lia. cbn [bind rmap]. eapply vsim_same; eauto.
  - destruct Hp as (H1 & H2 & N). obj R s Hs. obj R d Hd. destruct (Nat.eqb_spec d s) as [->|_]; [congruence|]. cbn [bind rmap].
    eapply vsim_ok. eapply vrel_put; eauto.
  - obj R o Hb. eapply vsim_ok. apply vrel_destroy. exact R.
  - destruct Hp as [H1 H2]. destruct (avget a o) as [l|] eqn:E; [|congruence].
    destruct (vref_sim R o l E) as (st & c & tbl' & -> & R' & T). cbn [bind fst snd]. eapply vsim_ok.
    apply vrel_add_it; [rewrite avm_eta; exact R'|]. exists c. cbn. repeat split; auto; lia.
  - destruct Hp as [H1 H2]. obj R o Hb. fold (vlen (v_data b)). destruct (_ <=? _); [eapply vsim_throw; eauto|].
    destruct (vref_sim R o _ E) as (st & c & tbl' & -> & R' & T). cbn [bind fst snd]. eapply vsim_ok.
    apply vrel_add_it; [rewrite avm_eta; exact R'|]. exists c. cbn. repeat split; auto; lia.
  - destruct (vrel_it R k Hp) as (c & E1 & E2 & E3 & E4). rewrite E3. destruct (_ <=? _); [eapply vsim_throw; eauto|].
    eapply vsim_ok. apply vrel_add_it; [rewrite avm_eta, vm_eta; exact R|]. exists c. cbn. repeat split; auto; lia.
  - destruct (vrel_it R k Hp) as (c & E1 & E2 & E3 & E4). unfold vderef. rewrite E1, (valive_iff R c _ E2), E3.
    destruct (avget a (fst (nth k (av_its a) (0%nat, 0)))) as [l|] eqn:E; [|cbn [bind]; eapply vsim_throw; eauto].
    destruct (vrel_get R _ l E) as (b & -> & <- & _). destruct (Z.leb_spec (vlen (v_data b)) (snd (nth k (av_its a) (0%nat, 0)))) as [L|L].
    + rewrite (proj2 (nth_error_None _ _)) by (unfold vlen in L; lia). cbn [bind rmap]. eapply vsim_throw; eauto.
    + unfold raw_get. destruct (nth_error (v_data b) _) eqn:En; cbn [bind rmap]; [eapply vsim_same; eauto|].
      apply nth_error_None in En. unfold vlen in L. lia.
  - destruct Hp as [H1 H2]. pose proof (vrel_it R _ H1) as I1. pose proof (vrel_it R _ H2) as I2.
    rewrite (vref_eq_iff R _ _ _ _ I1 I2). destruct I1 as (c1 & _ & _ & -> & _), I2 as (c2 & _ & _ & -> & _).
    destruct (Nat.eqb _ _); [eapply vsim_same|eapply vsim_throw]; eauto.
  - destruct Hp as [H1 H2]. pose proof (vrel_it R _ H1) as I1. pose proof (vrel_it R _ H2) as I2.
    rewrite (vref_eq_iff R _ _ _ _ I1 I2). destruct I1 as (c1 & _ & _ & -> & _), I2 as (c2 & _ & _ & -> & _).
    destruct (Nat.eqb _ _); [eapply vsim_same|eapply vsim_throw]; eauto.
  - destruct Hp as (H1 & H2 & H3). obj R o Hb. pose proof (vrel_it R _ H2) as I1. rewrite vinsert_spec.
    assert (E3 : vi_index (vm_it m k) = snd (nth k (av_its a) (0%nat, 0))) by (destruct I1 as (c1 & _ & _ & -> & _); reflexivity). rewrite E3.
    destruct (_ <? _); cbn [bind fst snd]; [eapply vsim_throw; eauto|]. eapply vsim_ok. cbn [vm_st].
    apply vrel_add_it; [|exact I1]. exact (vrel_put tbl m a o _ b _ R E Hb).
Qed.

Lemma vtrace_sim ps : forall tbl m a, vrel tbl m a -> vprog_ok dflt a ps -> vtrace dflt m ps = avtrace dflt a ps /\ ~ In UB (avtrace dflt a ps).
Proof.
  induction ps as [|p ps IH]; intros tbl m a R Hp; [split; [reflexivity|intros []]|]. cbn [vprog_ok vtrace avtrace] in *.
  destruct Hp as [Hp Hps]. destruct (vstep_sim tbl m a p R Hp) as (E & U & tbl' & R'). destruct (IH tbl' _ _ R' Hps) as [IH1 IH2].
  rewrite E, IH1. split; [reflexivity|]. intros [H|H]; [congruence|auto].
Qed.
End Dflt.
