(** Proof of C42 and C43, part 2: the concrete machine refines the abstract one. *)
From Coq Require Import Sorted.
From Verif Require Import Base BytesModel BytesSpec BytesProofs3 AssocModel AssocSpec AssocProofs.
Open Scope Z_scope.

Definition nodes_ok (st : xstate) : Prop :=
  (forall o b, xobj_at st o = Some b -> NoDup (nids (x_ents b)) /\ Forall (fun n => (n < xs_node st)%nat) (nids (x_ents b))) /\
  (forall o1 o2 b1 b2 n, xobj_at st o1 = Some b1 -> xobj_at st o2 = Some b2 ->
     In n (nids (x_ents b1)) -> In n (nids (x_ents b2)) -> o1 = o2).

Definition obj_ok (st : xstate) (a : ymach) (o : nat) : Prop :=
  match xobj_at st o, yget a o with
  | None, None => True
  | Some b, Some y => map snd (x_ents b) = y_map y /\ ksorted (y_map y) /\ (y_iter y = true -> x_data b = o) /\
                      (forall c, x_ctl b = Some c -> (c < xs_ctl st)%nat)
  | _, _ => False
  end.

Definition xit_rel (st : xstate) (a : ymach) (x : xiter) (y : yiter) : Prop :=
  exists c, xi_ref x = Some (c, yi_obj y) /\ (c < xs_ctl st)%nat /\ (yi_obj y < length (xs_objs st))%nat /\ xi_checked x = yi_checked y /\
    (forall b, yget a (yi_obj y) = Some b -> (yi_epoch y <= y_epoch b)%nat) /\
    if ylive a y then exists b, xobj_at st (yi_obj y) = Some b /\ x_ctl b = Some c /\ pos_rel (x_ents b) (yi_obj y) (xi_pos x) (yi_key y)
    else forall o b, xobj_at st o = Some b -> x_ctl b <> Some c.

Record xrel (m : xmach) (a : ymach) : Prop := {
  x_len : length (xs_objs (xm_st m)) = length (ym_objs a);
  x_obj : forall o, obj_ok (xm_st m) a o;
  x_distinct : forall o1 o2 b1 b2 c, xobj_at (xm_st m) o1 = Some b1 -> xobj_at (xm_st m) o2 = Some b2 ->
    x_ctl b1 = Some c -> x_ctl b2 = Some c -> o1 = o2;
  x_nodes : nodes_ok (xm_st m);
  x_its : Forall2 (xit_rel (xm_st m) a) (xm_its m) (ym_its a)
}.

Lemma xobj_at_nil o c n : xobj_at (mkXS [] c n) o = None.
Proof. unfold xobj_at. cbn. destruct o; reflexivity. Qed.
Lemma xrel_init : xrel xm_init ym_init.
Proof.
  constructor; cbn; try reflexivity; try constructor.
  - intros o. unfold obj_ok. rewrite xobj_at_nil. unfold yget. cbn. destruct o; exact I.
  - intros o1 o2 b1 b2 c H. rewrite xobj_at_nil in H. discriminate.
  - intros o b H. rewrite xobj_at_nil in H. discriminate.
  - intros o1 o2 b1 b2 c H. rewrite xobj_at_nil in H. discriminate.
Qed.

Lemma xobj_at_upd objs c n c' n' o b o' : (o < length objs)%nat ->
  xobj_at (mkXS (upd objs o b) c n) o' = if Nat.eqb o' o then b else xobj_at (mkXS objs c' n') o'.
Proof.
  intros H. unfold xobj_at. cbn [xs_objs]. rewrite nth_error_upd. destruct (Nat.eqb o' o); [|reflexivity].
  destruct (Nat.ltb_spec o (length objs)); [destruct b; reflexivity|lia].
Qed.
Lemma xobj_at_snoc objs c n c' n' b o' :
  xobj_at (mkXS (objs ++ [b]) c n) o' = if Nat.eqb o' (length objs) then b else xobj_at (mkXS objs c' n') o'.
Proof. unfold xobj_at. cbn [xs_objs]. rewrite nth_error_snoc. destruct (Nat.eqb o' (length objs)); [destruct b; reflexivity|reflexivity]. Qed.
Lemma xobj_at_ctr objs c n c' n' o : xobj_at (mkXS objs c n) o = xobj_at (mkXS objs c' n') o.
Proof. reflexivity. Qed.
Lemma xobj_at_lt st o b : xobj_at st o = Some b -> (o < length (xs_objs st))%nat.
Proof. unfold xobj_at. intros H. apply nth_error_Some. destruct (nth_error (xs_objs st) o); congruence. Qed.
Lemma yget_upd objs its o b o' : (o < length objs)%nat ->
  yget (mkYM (upd objs o b) its) o' = if Nat.eqb o' o then b else yget (mkYM objs its) o'.
Proof.
  intros H. unfold yget. cbn [ym_objs]. rewrite nth_error_upd. destruct (Nat.eqb o' o); [|reflexivity].
  destruct (Nat.ltb_spec o (length objs)); [destruct b; reflexivity|lia].
Qed.
Lemma yget_snoc objs its b o' : yget (mkYM (objs ++ [b]) its) o' = if Nat.eqb o' (length objs) then b else yget (mkYM objs its) o'.
Proof. unfold yget. cbn [ym_objs]. rewrite nth_error_snoc. destruct (Nat.eqb o' (length objs)); [destruct b; reflexivity|reflexivity]. Qed.
Lemma yget_its objs its its' o : yget (mkYM objs its) o = yget (mkYM objs its') o.
Proof. reflexivity. Qed.
Lemma yget_lt a o b : yget a o = Some b -> (o < length (ym_objs a))%nat.
Proof. unfold yget. intros H. apply nth_error_Some. destruct (nth_error (ym_objs a) o); congruence. Qed.
Lemma xm_eta m : mkXM (xm_st m) (xm_its m) = m. Proof. destruct m; reflexivity. Qed.
Lemma ym_eta m : mkYM (ym_objs m) (ym_its m) = m. Proof. destruct m; reflexivity. Qed.
Lemma xs_eta st : mkXS (xs_objs st) (xs_ctl st) (xs_node st) = st. Proof. destruct st; reflexivity. Qed.

Section WithRel.
Context {m : xmach} {a : ymach} (R : xrel m a).
Let st := xm_st m.

Lemma xrel_get o y : yget a o = Some y -> exists b, xobj_at st o = Some b /\ map snd (x_ents b) = y_map y /\ ksorted (y_map y) /\
  (y_iter y = true -> x_data b = o) /\ (forall c, x_ctl b = Some c -> (c < xs_ctl st)%nat).
Proof.
  intros H. pose proof (x_obj _ _ R o) as O. unfold obj_ok in O. rewrite H in O. fold st in O. destruct (xobj_at st o) as [b|]; [|contradiction].
  exists b. auto.
Qed.
Lemma xrel_none o : yget a o = None -> xobj_at st o = None.
Proof. intros H. pose proof (x_obj _ _ R o) as O. unfold obj_ok in O. rewrite H in O. fold st in O. destruct (xobj_at st o); [contradiction|reflexivity]. Qed.
Lemma xrel_it i : (i < length (ym_its a))%nat -> xit_rel st a (xm_it m i) (ym_it a i).
Proof.
  intros H. pose proof (x_its _ _ R) as F. unfold xm_it, ym_it. fold st in F. revert i H. induction F as [|x y l l' Hxy F IH]; intros i H; [cbn in H; lia|].
  destruct i as [|i]; cbn; [exact Hxy|]. apply IH. cbn in H. lia.
Qed.

Lemma alive_live x y c : xit_rel st a x y -> xi_ref x = Some (c, yi_obj y) -> x_alive st c = ylive a y.
Proof.
  intros (c' & E & _ & _ & _ & _ & H) Ec. rewrite Ec in E. injection E as <-. destruct (ylive a y).
  - destruct H as (b & Hb & Hc & _). unfold x_alive. apply existsb_exists. exists (Some b). split.
    + unfold xobj_at in Hb. destruct (nth_error (xs_objs st) (yi_obj y)) eqn:En; [|discriminate]. apply nth_error_In in En. destruct o; [|discriminate].
      injection Hb as ->. exact En.
    + cbn. rewrite Hc. apply Nat.eqb_refl.
  - unfold x_alive. destruct (existsb (holds c) (xs_objs st)) eqn:Ex; [|reflexivity]. apply existsb_exists in Ex. destruct Ex as (b & Hin & Hh).
    destruct b as [b|]; [|discriminate]. cbn in Hh. destruct (x_ctl b) as [c'|] eqn:Ec'; [|discriminate]. apply Nat.eqb_eq in Hh. subst c'.
    apply In_nth_error in Hin. destruct Hin as [o Ho]. exfalso. apply (H o b); [unfold xobj_at; rewrite Ho; reflexivity|exact Ec'].
Qed.

(** No iterators use the control block of a container that has no valid iterators. *)
Lemma no_iters_ctl o b c x d : xobj_at st o = Some b -> x_ctl b = Some c -> ~ has_iters a o ->
  In x (xm_its m) -> xi_ref x <> Some (c, d).
Proof.
  intros Hb Hc N Hx Ec. assert (exists y, In y (ym_its a) /\ xit_rel st a x y) as (y & Hy & (c' & E & _ & _ & _ & _ & H)).
  { pose proof (x_its _ _ R) as F. fold st in F. clear - F Hx. induction F as [|x' y l l' Hxy F IH]; [contradiction|]. destruct Hx as [<-|Hx]; [exists y; cbn; auto|].
    destruct (IH Hx) as (z & A & B). exists z. cbn. auto. }
  rewrite Ec in E. injection E as <- _. destruct (ylive a y) eqn:L.
  - destruct H as (b' & Hb' & Hc' & _). pose proof (x_distinct _ _ R _ _ _ _ _ Hb' Hb Hc' Hc) as Eo. apply N. exists y. auto.
  - apply (H o b Hb Hc).
Qed.
End WithRel.

Lemma Forall2_In_impl {A B} (P Q : A -> B -> Prop) l1 l2 : (forall a b, In a l1 -> In b l2 -> P a b -> Q a b) -> Forall2 P l1 l2 -> Forall2 Q l1 l2.
Proof. intros H F. induction F as [|x y l l' Hxy F IH]; constructor; [apply H; cbn; auto|]. apply IH. intros a b Ha Hb. apply H; cbn; auto. Qed.

(** Replacing a container's content. *)
Lemma put_rel m a o b y b' y' node' : xrel m a -> xobj_at (xm_st m) o = Some b -> yget a o = Some y ->
  map snd (x_ents b') = y_map y' -> ksorted (y_map y') -> y_iter y' = y_iter y -> x_data b' = x_data b ->
  NoDup (nids (x_ents b')) -> Forall (fun n => (n < node')%nat) (nids (x_ents b')) -> (xs_node (xm_st m) <= node')%nat ->
  (forall n o' b'', In n (nids (x_ents b')) -> o' <> o -> xobj_at (xm_st m) o' = Some b'' -> ~ In n (nids (x_ents b''))) ->
  ((y_epoch y' = y_epoch y /\ x_ctl b' = x_ctl b /\ (forall p k, pos_rel (x_ents b) o p k -> pos_rel (x_ents b') o p k)) \/
   (y_epoch y' = y_epoch y /\ ~ has_iters a o /\ (x_ctl b' = x_ctl b \/ x_ctl b' = None)) \/
   (y_epoch y' = S (y_epoch y) /\ x_ctl b' = None)) ->
  xrel (mkXM (mkXS (upd (xs_objs (xm_st m)) o (Some b')) (xs_ctl (xm_st m)) node') (xm_its m)) (yput a o (Some y')).
Proof.
  intros R Hb Hy C1 C2 C3 C4 N1 N2 N3 N4 H. set (st := xm_st m) in *.
  assert (Lo : (o < length (xs_objs st))%nat) by (apply xobj_at_lt in Hb; exact Hb).
  assert (Lo' : (o < length (ym_objs a))%nat) by (apply yget_lt in Hy; exact Hy).
  assert (At : forall o', xobj_at (mkXS (upd (xs_objs st) o (Some b')) (xs_ctl st) node') o' = if Nat.eqb o' o then Some b' else xobj_at st o').
  { intros o'. rewrite (xobj_at_upd _ _ _ (xs_ctl st) (xs_node st)) by exact Lo. rewrite xs_eta. reflexivity. }
  assert (Ay : forall o', yget (yput a o (Some y')) o' = if Nat.eqb o' o then Some y' else yget a o').
  { intros o'. unfold yput. rewrite yget_upd by exact Lo'. rewrite ym_eta. reflexivity. }
  assert (Ctl : x_ctl b' = x_ctl b \/ x_ctl b' = None) by tauto.
  pose proof (x_obj _ _ R o) as O. unfold obj_ok in O. fold st in O. rewrite Hb, Hy in O. destruct O as (O1 & O2 & O3 & O4).
  constructor; cbn [xm_st xm_its ym_objs ym_its yput].
  - cbn. rewrite !upd_length. apply (x_len _ _ R).
  - intros o'. unfold obj_ok. rewrite At, Ay. destruct (Nat.eqb_spec o' o) as [->|N].
    + split; [exact C1|]. split; [exact C2|]. split; [rewrite C3, C4; exact O3|]. intros c Hc. apply O4. destruct Ctl; congruence.
    + apply (x_obj _ _ R).
  - intros o1 o2 b1 b2 c. rewrite !At. destruct (Nat.eqb_spec o1 o) as [->|E1], (Nat.eqb_spec o2 o) as [->|E2]; intros H1 H2 H3 H4; auto.
    + injection H1 as <-. destruct Ctl as [Ct|Ct]; [|congruence]. rewrite Ct in H3. eapply (x_distinct _ _ R); eauto.
    + injection H2 as <-. destruct Ctl as [Ct|Ct]; [|congruence]. rewrite Ct in H4. eapply (x_distinct _ _ R); eauto.
    + eapply (x_distinct _ _ R); eauto.
  - destruct (x_nodes _ _ R) as [D1 D2]. fold st in D1, D2. split.
    + intros o' b''. rewrite At. cbn [xs_node]. destruct (Nat.eqb_spec o' o) as [->|E].
      * intros E. injection E as <-. auto.
      * intros E'. destruct (D1 _ _ E') as [F1 F2]. split; [exact F1|]. eapply Forall_impl; [|exact F2]. cbn. intros; lia.
    + intros o1 o2 b1 b2 n. rewrite !At. destruct (Nat.eqb_spec o1 o) as [->|E1], (Nat.eqb_spec o2 o) as [->|E2]; intros H1 H2 H3 H4; auto.
      * injection H1 as <-. exfalso. exact (N4 n o2 b2 H3 E2 H2 H4).
      * injection H2 as <-. exfalso. exact (N4 n o1 b1 H4 E1 H1 H3).
      * eapply D2; eauto.
  - eapply Forall2_In_impl; [|apply (x_its _ _ R)]. fold st. intros x z Hx Hz Hrel. pose proof Hrel as Hrel0.
    destruct Hrel as (c & E1 & E2 & E3 & E4 & E5 & E6). exists c. split; [exact E1|]. split; [exact E2|].
    split; [cbn; rewrite upd_length; exact E3|]. split; [exact E4|]. split.
    { intros b'' Hb''. rewrite Ay in Hb''. destruct (Nat.eqb_spec (yi_obj z) o) as [Eo|Eo]; [|apply E5; exact Hb''].
      injection Hb'' as <-. specialize (E5 y ltac:(rewrite Eo; exact Hy)). destruct H as [(Ep & _)|[(Ep & _)|(Ep & _)]]; lia. }
    unfold ylive in *. rewrite Ay. destruct (Nat.eqb_spec (yi_obj z) o) as [Eo|Eo].
    + rewrite Eo in *. rewrite Hy in E6, E5. specialize (E5 y eq_refl). destruct H as [(Ep & Hc & Hp)|[(Ep & Hn & Hc)|(Ep & Hc)]].
      * rewrite Ep. destruct (Nat.eqb (y_epoch y) (yi_epoch z)).
        -- destruct E6 as (bb & F1 & F2 & F3). rewrite Hb in F1. injection F1 as <-. exists b'. rewrite At, Nat.eqb_refl. split; [reflexivity|].
           split; [congruence|]. apply Hp. exact F3.
        -- intros o' b''. rewrite At. destruct (Nat.eqb_spec o' o) as [->|N]; [|apply E6]. intros F. injection F as <-. rewrite Hc. apply (E6 o b Hb).
      * rewrite Ep. destruct (Nat.eqb (y_epoch y) (yi_epoch z)) eqn:Ee.
        -- exfalso. apply Hn. exists z. split; [exact Hz|]. split; [exact Eo|]. unfold ylive. rewrite Eo, Hy. exact Ee.
        -- intros o' b''. rewrite At. destruct (Nat.eqb_spec o' o) as [->|N]; [|apply E6]. intros F. injection F as <-.
           destruct Hc as [Hc|Hc]; rewrite Hc; [apply (E6 o b Hb)|discriminate].
      * rewrite Ep. destruct (Nat.eqb_spec (S (y_epoch y)) (yi_epoch z)); [lia|]. intros o' b''. rewrite At. destruct (Nat.eqb_spec o' o) as [->|N].
        -- intros F. injection F as <-. rewrite Hc. discriminate.
        -- destruct (Nat.eqb (y_epoch y) (yi_epoch z)).
           ++ destruct E6 as (bb & F1 & F2 & F3). intros F G. apply N. eapply (x_distinct _ _ R); eauto.
           ++ apply E6.
    + destruct (yget a (yi_obj z)) as [w|] eqn:Ew.
      * destruct (Nat.eqb (y_epoch w) (yi_epoch z)).
        -- destruct E6 as (bb & F1 & F2 & F3). exists bb. rewrite At. destruct (Nat.eqb_spec (yi_obj z) o); [contradiction|]. auto.
        -- intros o' b''. rewrite At. destruct (Nat.eqb_spec o' o) as [->|N]; [|apply E6]. intros F. injection F as <-.
           destruct Ctl as [Ct|Ct]; rewrite Ct; [apply (E6 o b Hb)|discriminate].
      * intros o' b''. rewrite At. destruct (Nat.eqb_spec o' o) as [->|N]; [|apply E6]. intros F. injection F as <-.
        destruct Ctl as [Ct|Ct]; rewrite Ct; [apply (E6 o b Hb)|discriminate].
Qed.

Lemma destroy_rel m a o b : xrel m a -> xobj_at (xm_st m) o = Some b -> xrel (mkXM (xput (xm_st m) o None) (xm_its m)) (yput a o None).
Proof.
  intros R Hb. set (st := xm_st m) in *.
  assert (Lo : (o < length (xs_objs st))%nat) by (apply xobj_at_lt in Hb; exact Hb).
  assert (Lo' : (o < length (ym_objs a))%nat) by (rewrite <- (x_len _ _ R); exact Lo).
  assert (At : forall o', xobj_at (xput st o None) o' = if Nat.eqb o' o then None else xobj_at st o').
  { intros o'. unfold xput. rewrite (xobj_at_upd _ _ _ (xs_ctl st) (xs_node st)) by exact Lo. rewrite xs_eta. reflexivity. }
  assert (Ay : forall o', yget (yput a o None) o' = if Nat.eqb o' o then None else yget a o').
  { intros o'. unfold yput. rewrite yget_upd by exact Lo'. rewrite ym_eta. reflexivity. }
  constructor; cbn [xm_st xm_its].
  - cbn. rewrite !upd_length. apply (x_len _ _ R).
  - intros o'. unfold obj_ok. rewrite At, Ay. destruct (Nat.eqb_spec o' o); [exact I|]. apply (x_obj _ _ R).
  - intros o1 o2 b1 b2 c. rewrite !At. destruct (Nat.eqb o1 o), (Nat.eqb o2 o); try discriminate. apply (x_distinct _ _ R).
  - destruct (x_nodes _ _ R) as [D1 D2]. split.
    + intros o' b''. rewrite At. destruct (Nat.eqb o' o); [discriminate|]. apply D1.
    + intros o1 o2 b1 b2 n. rewrite !At. destruct (Nat.eqb o1 o), (Nat.eqb o2 o); try discriminate. apply D2.
  - eapply Forall2_In_impl; [|apply (x_its _ _ R)]. fold st. intros x z Hx Hz (c & E1 & E2 & E3 & E4 & E5 & E6). exists c.
    split; [exact E1|]. split; [exact E2|]. split; [cbn; rewrite upd_length; exact E3|]. split; [exact E4|]. split.
    { intros b'' Hb''. rewrite Ay in Hb''. destruct (Nat.eqb_spec (yi_obj z) o) as [Eo|Eo]; [discriminate|apply E5; exact Hb'']. }
    unfold ylive in *. rewrite Ay. destruct (Nat.eqb_spec (yi_obj z) o) as [Eo|Eo].
    + intros o' b''. rewrite At. destruct (Nat.eqb_spec o' o) as [->|N]; [discriminate|].
      destruct (yget a (yi_obj z)) as [w|]; [|apply E6]. destruct (Nat.eqb (y_epoch w) (yi_epoch z)); [|apply E6].
      destruct E6 as (bb & F1 & F2 & F3). intros F G. apply N. rewrite <- Eo. eapply (x_distinct _ _ R); eauto.
    + destruct (yget a (yi_obj z)) as [w|].
      * destruct (Nat.eqb (y_epoch w) (yi_epoch z)).
        -- destruct E6 as (bb & F1 & F2 & F3). exists bb. rewrite At. destruct (Nat.eqb_spec (yi_obj z) o); [contradiction|]. auto.
        -- intros o' b''. rewrite At. destruct (Nat.eqb o' o); [discriminate|]. apply E6.
      * intros o' b''. rewrite At. destruct (Nat.eqb o' o); [discriminate|]. apply E6.
Qed.

(** A new container. Its control block, if it has one already, is not used by any other container or iterator. *)
Lemma new_rel m a b' y' node' : xrel m a ->
  map snd (x_ents b') = y_map y' -> ksorted (y_map y') -> (y_iter y' = true -> x_data b' = length (xs_objs (xm_st m))) ->
  NoDup (nids (x_ents b')) -> Forall (fun n => (n < node')%nat) (nids (x_ents b')) -> (xs_node (xm_st m) <= node')%nat ->
  (forall n o' b'', In n (nids (x_ents b')) -> xobj_at (xm_st m) o' = Some b'' -> ~ In n (nids (x_ents b''))) ->
  (forall c, x_ctl b' = Some c -> (c < xs_ctl (xm_st m))%nat /\ (forall o b, xobj_at (xm_st m) o = Some b -> x_ctl b <> Some c) /\
             (forall x d, In x (xm_its m) -> xi_ref x <> Some (c, d))) ->
  xrel (mkXM (mkXS (xs_objs (xm_st m) ++ [Some b']) (xs_ctl (xm_st m)) node') (xm_its m)) (mkYM (ym_objs a ++ [Some y']) (ym_its a)).
Proof.
  intros R C1 C2 C3 N1 N2 N3 N4 HC. set (st := xm_st m) in *. set (L := length (xs_objs st)) in *.
  assert (At : forall o', xobj_at (mkXS (xs_objs st ++ [Some b']) (xs_ctl st) node') o' = if Nat.eqb o' L then Some b' else xobj_at st o').
  { intros o'. rewrite (xobj_at_snoc _ _ _ (xs_ctl st) (xs_node st)). rewrite xs_eta. reflexivity. }
  assert (Ay : forall o', yget (mkYM (ym_objs a ++ [Some y']) (ym_its a)) o' = if Nat.eqb o' L then Some y' else yget a o').
  { intros o'. rewrite yget_snoc, ym_eta. unfold L, st. rewrite (x_len _ _ R). reflexivity. }
  constructor; cbn [xm_st xm_its ym_its].
  - cbn. rewrite !app_length. cbn. pose proof (x_len _ _ R) as X. fold st in X. lia.
  - intros o'. unfold obj_ok. rewrite At, Ay. destruct (Nat.eqb_spec o' L) as [->|N]; [|apply (x_obj _ _ R)].
    split; [exact C1|]. split; [exact C2|]. split; [exact C3|]. intros c Hc. apply (HC c Hc).
  - intros o1 o2 b1 b2 c. rewrite !At. destruct (Nat.eqb_spec o1 L) as [->|E1], (Nat.eqb_spec o2 L) as [->|E2]; intros H1 H2 H3 H4; auto.
    + injection H1 as <-. exfalso. destruct (HC c H3) as (_ & G & _). exact (G _ _ H2 H4).
    + injection H2 as <-. exfalso. destruct (HC c H4) as (_ & G & _). exact (G _ _ H1 H3).
    + eapply (x_distinct _ _ R); eauto.
  - destruct (x_nodes _ _ R) as [D1 D2]. fold st in D1, D2. split.
    + intros o' b''. rewrite At. cbn [xs_node]. destruct (Nat.eqb_spec o' L) as [->|E].
      * intros E. injection E as <-. auto.
      * intros E'. destruct (D1 _ _ E') as [F1 F2]. split; [exact F1|]. eapply Forall_impl; [|exact F2]. cbn. intros; lia.
    + intros o1 o2 b1 b2 n. rewrite !At. destruct (Nat.eqb_spec o1 L) as [->|E1], (Nat.eqb_spec o2 L) as [->|E2]; intros H1 H2 H3 H4; auto.
      * injection H1 as <-. exfalso. exact (N4 n o2 b2 H3 H2 H4).
      * injection H2 as <-. exfalso. exact (N4 n o1 b1 H4 H1 H3).
      * eapply D2; eauto.
  - eapply Forall2_In_impl; [|apply (x_its _ _ R)]. fold st. intros x z Hx Hz Hrel. pose proof Hrel as Hrel0.
    destruct Hrel as (c & E1 & E2 & E3 & E4 & E5 & E6). exists c. split; [exact E1|]. split; [exact E2|].
    split; [cbn; rewrite app_length; fold L in E3 |- *; lia|]. split; [exact E4|].
    assert (NL : Nat.eqb (yi_obj z) L = false) by (apply Nat.eqb_neq; fold L in E3; lia). split.
    { intros b'' Hb''. rewrite Ay, NL in Hb''. apply E5. exact Hb''. }
    unfold ylive in *. rewrite Ay, NL.
    assert (Dead : (forall o b, xobj_at st o = Some b -> x_ctl b <> Some c) -> forall o b,
              xobj_at (mkXS (xs_objs st ++ [Some b']) (xs_ctl st) node') o = Some b -> x_ctl b <> Some c).
    { intros G o b''. rewrite At. destruct (Nat.eqb o L); [|apply G]. intros F K. injection F as <-. destruct (HC c K) as (_ & _ & G3).
      exact (G3 x _ Hx E1). }
    destruct (yget a (yi_obj z)) as [w|]; [|apply Dead; exact E6]. destruct (Nat.eqb (y_epoch w) (yi_epoch z)); [|apply Dead; exact E6].
    destruct E6 as (bb & F1 & F2 & F3). exists bb. rewrite At, NL. auto.
Qed.

(** Taking a reference and making an iterator. *)
Lemma ref_rel m a o y : xrel m a -> yget a o = Some y -> y_iter y = true ->
  exists st' c b, xref (xm_st m) o = Ok (st', (c, o)) /\ xrel (mkXM st' (xm_its m)) a /\
    xobj_at st' o = Some b /\ x_ctl b = Some c /\ (c < xs_ctl st')%nat /\
    (forall b0, xobj_at (xm_st m) o = Some b0 -> x_ents b = x_ents b0).
Proof.
  intros R Hy Hi. set (st := xm_st m) in *. destruct (xrel_get R o y Hy) as (b & Hb & C1 & C2 & C3 & C4). fold st in Hb, C4. unfold xref. fold st. rewrite Hb.
  assert (Hd : x_data b = o) by auto. rewrite Hd. destruct (x_ctl b) as [c|] eqn:Ec.
  - exists st, c, b. replace (mkXM st (xm_its m)) with m by (symmetry; apply xm_eta). split; [reflexivity|]. split; [exact R|]. split; [exact Hb|].
    split; [exact Ec|]. split; [apply C4; reflexivity|]. intros b0 H. congruence.
  - set (b' := mkXO (x_ents b) (Some (xs_ctl st)) o).
    exists (mkXS (upd (xs_objs st) o (Some b')) (S (xs_ctl st)) (xs_node st)), (xs_ctl st), b'.
    assert (Lo : (o < length (xs_objs st))%nat) by (apply xobj_at_lt in Hb; exact Hb).
    assert (At : forall o', xobj_at (mkXS (upd (xs_objs st) o (Some b')) (S (xs_ctl st)) (xs_node st)) o' = if Nat.eqb o' o then Some b' else xobj_at st o').
    { intros o'. rewrite (xobj_at_upd _ _ _ (xs_ctl st) (xs_node st)) by exact Lo. rewrite xs_eta. reflexivity. }
    assert (Fresh : forall o' b'', xobj_at st o' = Some b'' -> x_ctl b'' <> Some (xs_ctl st)).
    { intros o' b'' H K. pose proof (x_obj _ _ R o') as O. unfold obj_ok in O. fold st in O. rewrite H in O. destruct (yget a o'); [|contradiction].
      destruct O as (_ & _ & _ & O). specialize (O _ K). lia. }
    split; [reflexivity|]. split; [|split; [rewrite At, Nat.eqb_refl; reflexivity|split; [reflexivity|split; [cbn; lia|]]]].
    2:{ intros b0 H. injection H as <-. reflexivity. }
    constructor; cbn [xm_st xm_its].
    + cbn. rewrite upd_length. apply (x_len _ _ R).
    + intros o'. unfold obj_ok. rewrite At. destruct (Nat.eqb_spec o' o) as [->|N].
      * rewrite Hy. cbn. split; [exact C1|]. split; [exact C2|]. split; [auto|]. intros c H. injection H as <-. lia.
      * pose proof (x_obj _ _ R o') as O. unfold obj_ok in O. fold st in O. destruct (xobj_at st o') as [bo|], (yget a o'); auto.
        destruct O as (O1 & O2 & O3 & O4). repeat split; auto. intros c H. specialize (O4 c H). cbn. lia.
    + intros o1 o2 b1 b2 c. rewrite !At. destruct (Nat.eqb_spec o1 o) as [->|E1], (Nat.eqb_spec o2 o) as [->|E2]; intros H1 H2 H3 H4; auto.
      * injection H1 as <-. cbn in H3. injection H3 as <-. exfalso. exact (Fresh _ _ H2 H4).
      * injection H2 as <-. cbn in H4. injection H4 as <-. exfalso. exact (Fresh _ _ H1 H3).
      * eapply (x_distinct _ _ R); eauto.
    + destruct (x_nodes _ _ R) as [D1 D2]. fold st in D1, D2. split.
      * intros o' b''. rewrite At. destruct (Nat.eqb_spec o' o) as [->|E]; [|apply D1]. intros E. injection E as <-. apply (D1 o b Hb).
      * intros o1 o2 b1 b2 n. rewrite !At. destruct (Nat.eqb_spec o1 o) as [->|E1], (Nat.eqb_spec o2 o) as [->|E2]; intros H1 H2 H3 H4; auto.
        -- injection H1 as <-. eapply (D2 o o2); eauto.
        -- injection H2 as <-. eapply (D2 o1 o); eauto.
        -- eapply D2; eauto.
    + eapply Forall2_impl'; [|apply (x_its _ _ R)]. fold st. intros x z (c & E1 & E2 & E3 & E4 & E5 & E6). exists c. split; [exact E1|].
      split; [cbn; lia|]. split; [cbn; rewrite upd_length; exact E3|]. split; [exact E4|]. split; [exact E5|]. destruct (ylive a z).
      * destruct E6 as (bb & F1 & F2 & F3). destruct (Nat.eqb_spec (yi_obj z) o) as [Eo|Eo].
        -- rewrite Eo, Hb in F1. injection F1 as <-. congruence.
        -- exists bb. rewrite At. destruct (Nat.eqb_spec (yi_obj z) o); [contradiction|]. auto.
      * intros o' b''. rewrite At. destruct (Nat.eqb o' o); [|apply E6]. intros F K. injection F as <-. cbn in K. injection K as K. lia.
Qed.

Lemma add_rel m a o y b c p k chk : xrel m a -> yget a o = Some y -> xobj_at (xm_st m) o = Some b -> x_ctl b = Some c ->
  (c < xs_ctl (xm_st m))%nat -> pos_rel (x_ents b) o p k ->
  xrel (mkXM (xm_st m) (xm_its m ++ [mkXI (Some (c, o)) p chk])) (yadd a (mkYI o (y_epoch y) k chk)).
Proof.
  intros R Hy Hb Hc Lc Hp. constructor; cbn [xm_st xm_its].
  - apply (x_len _ _ R).
  - apply (x_obj _ _ R).
  - apply (x_distinct _ _ R).
  - apply (x_nodes _ _ R).
  - unfold yadd at 2. cbn [ym_its]. apply Forall2_app; [exact (x_its _ _ R)|]. constructor; [|constructor]. exists c. cbn [xi_ref yi_obj xi_checked yi_checked yi_epoch xi_pos yi_key].
    assert (Eg : forall i, yget (yadd a i) o = Some y) by (intros i; exact Hy).
    split; [reflexivity|]. split; [exact Lc|]. split; [apply xobj_at_lt in Hb; exact Hb|]. split; [reflexivity|].
    split; [intros b0 H; rewrite Eg in H; injection H as <-; lia|]. unfold ylive. cbn [yi_obj yi_epoch]. rewrite Eg, Nat.eqb_refl. exists b. auto.
Qed.

(** std iterators *)
Lemma node_in_split l1 n kv l2 : ~ In n (nids l1) -> node_in (l1 ++ (n, kv) :: l2) n = Some (kv, l2).
Proof.
  induction l1 as [|[n' kv'] l1 IH]; cbn; intros H; [rewrite Nat.eqb_refl; reflexivity|].
  destruct (Nat.eqb_spec n n') as [->|N]; [exfalso; auto|]. apply IH. auto.
Qed.
Lemma node_in_none es n : ~ In n (nids es) -> node_in es n = None.
Proof. induction es as [|[n' kv] es IH]; cbn; intros H; [reflexivity|]. destruct (Nat.eqb_spec n n') as [->|N]; [exfalso; auto|]. auto. Qed.

Lemma find_node_gen objs : forall base o b n r, nth_error objs o = Some (Some b) -> node_in (x_ents b) n = Some r ->
  (forall o' b', (o' < o)%nat -> nth_error objs o' = Some (Some b') -> ~ In n (nids (x_ents b'))) ->
  find_node objs base n = Some ((base + o)%nat, r).
Proof.
  induction objs as [|x objs IH]; intros base o b n r Ho Hn Hno; [destruct o; discriminate|]. destruct o as [|o]; cbn in *.
  - injection Ho as ->. rewrite Hn, Nat.add_0_r. reflexivity.
  - assert (Hx : match x with Some b0 => node_in (x_ents b0) n | None => None end = None).
    { destruct x as [b0|]; [|reflexivity]. apply node_in_none. apply (Hno 0%nat b0); [lia|reflexivity]. }
    rewrite Hx. rewrite (IH (S base) o b n r Ho Hn); [f_equal; f_equal; lia|]. intros o' b' Hl Ho'. apply (Hno (S o') b'); [lia|exact Ho'].
Qed.
Lemma find_node_ok st o b l1 n kv l2 : nodes_ok st -> xobj_at st o = Some b -> x_ents b = l1 ++ (n, kv) :: l2 ->
  find_node (xs_objs st) 0 n = Some (o, (kv, l2)).
Proof.
  intros [D1 D2] Hb He. assert (Hn : nth_error (xs_objs st) o = Some (Some b)).
  { unfold xobj_at in Hb. destruct (nth_error (xs_objs st) o) as [[x|]|]; congruence. }
  apply (find_node_gen _ 0 o b n (kv, l2) Hn).
  - rewrite He. apply node_in_split. destruct (D1 _ _ Hb) as [ND _]. rewrite He in ND. unfold nids in *. rewrite map_app in ND. cbn in ND.
    apply NoDup_remove_2 in ND. intros H. apply ND. apply in_or_app. auto.
  - intros o' b' Hl Ho' Hin. assert (o' = o); [|lia]. apply (D2 o' o b' b n); auto.
    + unfold xobj_at. rewrite Ho'. reflexivity.
    + rewrite He. unfold nids. rewrite map_app. apply in_or_app. right. cbn. auto.
Qed.

Lemma pos_rel_eq es o p1 k1 p2 k2 : NoDup (nids es) -> ksorted (map snd es) -> pos_rel es o p1 k1 -> pos_rel es o p2 k2 ->
  pos_eqb p1 p2 = match k1, k2 with Some x, Some y => x =? y | None, None => true | _, _ => false end.
Proof.
  intros ND S. destruct k1 as [k1|], k2 as [k2|]; cbn.
  - intros (n1 & v1 & -> & H1) (n2 & v2 & -> & H2). cbn. apply eq_true_iff_eq. rewrite Nat.eqb_eq, Z.eqb_eq. split.
    + intros <-. assert (E : (n1, (k1, v1)) = (n1, (k2, v2))); [|congruence].
      clear S. unfold nids in ND. induction es as [|e es IH]; [contradiction|]. cbn in ND. inversion ND as [|? ? A B]; subst.
      destruct H1 as [->|H1], H2 as [E|H2]; cbn in *.
      * congruence.
      * exfalso. apply A. apply (in_map fst) in H2. exact H2.
      * exfalso. apply A. subst e. apply (in_map fst) in H1. exact H1.
      * auto.
    + intros <-. apply in_split in H1. destruct H1 as (l1 & l2 & ->). rewrite map_app in S. cbn in S. apply sorted_app in S. destruct S as (A & B & C).
      inversion B as [|? ? B1 B2]; subst. rewrite Forall_forall in B2. apply in_app_or in H2. destruct H2 as [H2|[H2|H2]].
      * specialize (C (k1, v2) (k1, v1) (in_map snd _ _ H2) ltac:(cbn; auto)). cbn in C. lia.
      * congruence.
      * specialize (B2 (k1, v2) (in_map snd _ _ H2)). cbn in B2. lia.
  - intros (n1 & v1 & -> & H1) ->. reflexivity.
  - intros -> (n1 & v1 & -> & H1). reflexivity.
  - intros -> ->. cbn. apply Nat.eqb_refl.
Qed.
