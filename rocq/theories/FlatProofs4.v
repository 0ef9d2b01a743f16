(** The whole pass: names, end, completeness. *)
From Coq Require Import List Bool Arith Lia FinFun.
From Verif Require Import FlatModel FlatSpec FlatProofs FlatProofs2 FlatProofs3.
Import ListNotations.

Lemma steps_good u p u' p' sc : steps no_capture u p u' p' -> good sc p -> good sc p'.
Proof. induction 1 as [u p|u p u1 p1 u2 p2 H _ IH|u p u2 p2 _ IH]; intros G; auto. apply IH. exact (step_good _ _ _ _ _ H G). Qed.
Lemma steps_observe u p u' p' sc : steps no_capture u p u' p' -> good sc p -> forall fuel v, map fst v = map fst sc -> observe fuel p' v = observe fuel p v.
Proof.
  induction 1 as [u p|u p u1 p1 u2 p2 H _ IH|u p u2 p2 _ IH]; intros G fuel v E; auto.
  rewrite (IH (step_good _ _ _ _ _ H G) fuel v E). exact (step_observe _ _ _ _ _ H G fuel v E).
Qed.

(** ** Where the scope knows the variables from outside *)
Lemma NoDup_mid A (a b c : list A) : NoDup (a ++ b ++ c) -> NoDup b.
Proof. intros H. apply NoDup_app_r in H. apply NoDup_app_l in H. exact H. Qed.
Lemma fresh_of u pre b post u' p' scn m : flatten_one u pre b post u' p' scn m -> NoDup (map snd (locals b)) ->
  exists ds, (forall p, In p ds <-> In p (locals b)) /\ fresh_names u u' scn ds m.
Proof.
  intros [sc ds rs m0 _ DS NDS RA _] ND. exists ds. split; [exact DS|]. apply rename_all_ok; [exact RA|].
  apply (NoDup_sub ds (locals b) NDS); [intros p Hp; apply DS; exact Hp|exact ND].
Qed.
Lemma NoDup_block pre b post : NoDup (map snd (locals (app_s pre (Cons (SBlock b) post)))) -> NoDup (map snd (locals b)).
Proof. rewrite locals_app. cbn [locals locals1]. rewrite !map_app. apply NoDup_mid. Qed.
Lemma knows_no_capture u pre b post u' p' scn m : flatten_one u pre b post u' p' scn m -> NoDup (map snd (locals b)) ->
  knows_outer pre b post scn m -> no_capture pre b post scn m.
Proof.
  intros F ND K x (d & HO & H). destruct (fresh_of _ _ _ _ _ _ _ _ F ND) as (ds & DS & [F1 _ _ _ _ _]).
  assert (X : In x scn) by (apply (K x d); [apply in_or_app; tauto|exact HO]).
  destruct H as [[_ H]|[_ (y & d' & HI & E & _)]].
  - rewrite direct_ren, map_map in H. apply in_map_iff in H as ([y d'] & E & HI). cbn in E. destruct (F1 y d') as [_ N]; [apply DS, direct_locals, HI|].
    rewrite E in N. contradiction.
  - destruct (F1 y d') as [_ N]; [apply DS, HI|]. rewrite E in N. contradiction.
Qed.
Lemma step_knows u : (forall s u' s', step1 knows_outer u s u' s' -> NoDup (map snd (locals1 s)) -> step1 no_capture u s u' s' /\ map snd (locals1 s') = map snd (locals1 s))
  /\ (forall p u' p', step knows_outer u p u' p' -> NoDup (map snd (locals p)) -> step no_capture u p u' p' /\ map snd (locals p') = map snd (locals p)).
Proof.
  apply steps_mut.
  - intros e a b u' a' _ H ND. cbn [locals1] in *. rewrite !map_app in *. destruct (H (NoDup_app_l _ _ _ ND)) as [H1 ->]. split; [constructor; exact H1|reflexivity].
  - intros e a b u' b' _ H ND. cbn [locals1] in *. rewrite !map_app in *. destruct (H (NoDup_app_r _ _ _ ND)) as [H1 ->]. split; [constructor; exact H1|reflexivity].
  - intros e b u' b' _ H ND. destruct (H ND) as [H1 E]. split; [constructor; exact H1|exact E].
  - intros b u' b' _ H ND. destruct (H ND) as [H1 E]. split; [constructor; exact H1|exact E].
  - intros pre b post u' p' scn m F K ND. split; [|exact (flatten_locals _ _ _ _ _ _ _ _ F)]. apply (here no_capture u pre b post u' p' scn m F).
    apply (knows_no_capture _ _ _ _ _ _ _ _ F); [|exact K]. exact (NoDup_block _ _ _ ND).
  - intros pre s post u' s' _ H ND. rewrite !locals_app in *. cbn [locals] in *. rewrite !map_app in *. destruct (H (NoDup_mid _ _ _ _ ND)) as [H1 ->].
    split; [constructor; exact H1|reflexivity].
Qed.
Lemma steps_knows u p u' p' : steps knows_outer u p u' p' -> NoDup (map snd (locals p)) -> steps no_capture u p u' p'.
Proof.
  induction 1 as [u p|u p u1 p1 u2 p2 H _ IH|u p u2 p2 _ IH]; intros ND.
  - apply no_step.
  - destruct (proj2 (step_knows u) _ _ _ H ND) as [H1 E]. eapply a_step; [exact H1|]. apply IH. rewrite E. exact ND.
  - apply new_run. auto.
Qed.

(** ** Names *)
Lemma rename_unchanged sc ds : forall u m u', rename_all sc ds u = (m, u') -> NoDup (map snd ds) ->
  (forall y e, used_as u y = Some e -> used_as u' y = Some e)
  /\ forall x d, In (x, d) ds -> ~ In x sc -> (used_as u' x = None \/ used_as u' x = Some d) -> new_name m d x = x.
Proof.
  induction ds as [|[z e] ds IH]; intros u m u' H ND; cbn [rename_all] in H.
  - inversion H; subst. split; [auto|intros x d []].
  - set (y := pick (S (length u + length sc)) u sc e z) in *. destruct (rename_all sc ds (emplace u y e)) as [m1 u1] eqn:E.
    inversion H; subst m u1. clear H. cbn in ND. inversion ND as [|? ? N1 N2]; subst. destruct (IH _ _ _ E N2) as [K J].
    split; [intros y0 e0 H0; apply K, emplace_old, H0|]. intros x d [X|X] NI HU; cbn [new_name].
    + inversion X; subst z e. rewrite Nat.eqb_refl. subst y. cbn [pick].
      replace (clash u sc d x) with false; [reflexivity|]. symmetry. apply orb_false_iff. split.
      * destruct (used_as u x) as [d'|] eqn:U; [|reflexivity]. apply (emplace_old u (pick (S (length u + length sc)) u sc d x) d), K in U.
        destruct HU as [HU|HU]; rewrite HU in U; [discriminate|]. inversion U. subst. rewrite Nat.eqb_refl. reflexivity.
      * destruct (has sc x) eqn:HS; [|reflexivity]. exfalso. apply NI. apply existsb_exists in HS as (w & HW & EW). apply name_eqb_eq in EW. subst. exact HW.
    + destruct (Nat.eqb_spec d e) as [->|N]; [exfalso; apply N1; apply in_map_iff; exists (x, e); auto|]. apply J; auto.
Qed.

(** ** The number of blocks *)
Lemma blocks_app a b : blocks (app_s a b) = blocks a + blocks b.
Proof. induction a as [|s a IH]; cbn; [reflexivity|]. rewrite IH. lia. Qed.
Lemma blocks_ren m : (forall s, blocks1 (ren1 m s) = blocks1 s) /\ (forall ss, blocks (ren m ss) = blocks ss).
Proof. apply all_mut; intros; cbn; rewrite ?H, ?H0; reflexivity. Qed.
Lemma blocks_resets l : blocks (resets l) = 0.
Proof. induction l as [|[x d] l IH]; cbn; auto. Qed.
Lemma step_blocks ok u : (forall s u' s', step1 ok u s u' s' -> blocks1 s = S (blocks1 s')) /\ (forall p u' p', step ok u p u' p' -> blocks p = S (blocks p')).
Proof.
  apply steps_mut; intros; cbn [blocks1]; try lia.
  - match goal with F : flatten_one _ _ _ _ _ _ _ _ |- _ => destruct F end. rewrite !blocks_app. cbn [blocks blocks1]. rewrite (proj2 (blocks_ren m)), blocks_resets. lia.
  - rewrite !blocks_app. cbn [blocks]. lia.
Qed.
Lemma flat_blocks : (forall s, flat1 s <-> blocks1 s = 0) /\ (forall ss, flat ss <-> blocks ss = 0).
Proof.
  apply all_mut; intros; cbn; try tauto; try lia; try (rewrite H, H0; lia); try (rewrite H; lia).
Qed.
Lemma name_decl_dec (p q : name * decl) : {p = q} + {p <> q}.
Proof. repeat decide equality. Qed.
Lemma fold_any u pre b post : exists u' p', step anything u (app_s pre (Cons (SBlock b) post)) u' p'.
Proof.
  set (scn := map fst (direct pre ++ direct post)). set (ds := nodup name_decl_dec (locals b)).
  destruct (rename_all scn ds u) as [m u'] eqn:E. exists u'. eexists. eapply here; [|exact Logic.I].
  apply (flatten_block u pre b post u' scn ds [] m); [| | |exact E|].
  - intros x d H. left. apply in_map_iff. exists (x, d). auto.
  - intros p. apply nodup_In.
  - apply NoDup_nodup.
  - intros p [].
Qed.
Lemma step_exists : (forall s, blocks1 s <> 0 -> (exists b, s = SBlock b) \/ forall u, exists u' s', step1 anything u s u' s')
  /\ (forall ss, blocks ss <> 0 -> forall u, exists u' p', step anything u ss u' p').
Proof.
  apply all_mut; cbn [blocks blocks1]; try (intros; lia).
  - intros e a IHa b IHb H. right. intros u. destruct (Nat.eq_dec (blocks a) 0) as [Z|Z].
    + destruct (IHb ltac:(lia) u) as (u' & b' & K). exists u', (SIf e a b'). constructor. exact K.
    + destruct (IHa Z u) as (u' & a' & K). exists u', (SIf e a' b). constructor. exact K.
  - intros e b IHb H. right. intros u. destruct (IHb H u) as (u' & b' & K). exists u', (SWhile e b'). constructor. exact K.
  - intros b _ _. left. eauto.
  - intros s IHs r IHr H u. destruct (Nat.eq_dec (blocks1 s) 0) as [Z|Z].
    + destruct (IHr ltac:(lia) u) as (u' & r' & K). inversion K as [pre b post u1 p1 scn m F O|pre s0 post u1 s1 K1]; subst.
      * exact (fold_any u (Cons s pre) b post).
      * exists u', (app_s (Cons s pre) (Cons s1 post)). apply (inside anything u (Cons s pre) s0 post u' s1 K1).
    + destruct (IHs Z) as [(b & ->)|K].
      * exact (fold_any u Nil b r).
      * destruct (K u) as (u' & s' & K1). exists u', (app_s Nil (Cons s' r)). apply (inside anything u Nil s r u' s' K1).
Qed.

(** ** Distinct names *)
Definition stem (p : name * decl) : nat * decl := (fst (fst p), snd p).
Lemma stems_eq l1 l2 : map stem l1 = map stem l2 -> stems_distinct l1 -> stems_distinct l2.
Proof.
  intros E H. assert (K : forall x d, In (x, d) l2 -> exists x', In (x', d) l1 /\ fst x' = fst x).
  { intros x d HI. apply (in_map stem) in HI. rewrite <- E in HI. apply in_map_iff in HI as ([x' d'] & E1 & HI). unfold stem in E1. cbn in E1.
    inversion E1; subst. exists x'. auto. }
  intros x d y e Hx Hy F. apply K in Hx as (x' & Hx & Fx), Hy as (y' & Hy & Fy). apply (H x' d y' e); congruence.
Qed.
Lemma stems_incl l1 l2 : incl l2 l1 -> stems_distinct l1 -> stems_distinct l2.
Proof. intros I H x d y e Hx Hy. apply H; apply I; assumption. Qed.
Lemma uses_scope : (forall s sc x d, resolved1 s sc -> In (x, d) (uses1 s) -> ~ In d (map snd (locals1 s)) -> In (x, d) sc)
  /\ (forall ss sc x d, resolved ss sc -> In (x, d) (uses ss) -> ~ In d (map snd (locals ss)) -> In (x, d) sc).
Proof.
  apply all_mut; cbn [resolved1 resolved uses1 uses locals1 locals].
  - intros x d e sc y d' H HI N. destruct (H y d' HI) as [R _]. apply refers_in in R. destruct R as [R|R]; [|exact R]. inversion R; subst. exfalso. apply N. cbn. auto.
  - intros x d e sc y d' [H HE] [HI|HI] N; [inversion HI; subst; apply refers_in; exact H|apply refers_in, HE, HI].
  - intros e sc y d' HE HI N. apply refers_in, HE, HI.
  - intros e a IHa b IHb sc y d' (HE & Ha & Hb) HI N. rewrite map_app in N. apply in_app_or in HI as [HI|HI]; [apply refers_in, HE, HI|].
    apply in_app_or in HI as [HI|HI]; [apply IHa|apply IHb]; auto; intros X; apply N; apply in_or_app; auto.
  - intros e b IHb sc y d' (HE & Hb) HI N. apply in_app_or in HI as [HI|HI]; [apply refers_in, HE, HI|]. apply IHb; auto.
  - intros b IHb sc y d' Hb HI N. apply IHb; auto.
  - intros sc y d' _ [].
  - intros sc y d' _ [].
  - intros sc y d' _ [].
  - intros s IHs r IHr sc y d' [Hs Hr] HI N. rewrite map_app in N. apply in_app_or in HI as [HI|HI].
    + apply IHs; auto. intros X. apply N. apply in_or_app; auto.
    + assert (X : In (y, d') (opened s sc)) by (apply IHr; auto; intros X; apply N; apply in_or_app; auto).
      destruct s; cbn [opened] in X; auto. destruct X as [X|X]; [|exact X]. inversion X; subst. exfalso. apply N. cbn. auto.
Qed.
Lemma flatten_stems u pre b post u' p' scn m : flatten_one u pre b post u' p' scn m -> NoDup (map snd (locals b)) ->
  map stem (locals p') = map stem (locals (app_s pre (Cons (SBlock b) post))).
Proof.
  intros F ND. destruct (fresh_of _ _ _ _ _ _ _ _ F ND) as (ds & DS & [_ _ _ _ _ F6]). destruct F as [sc ds1 rs m0 _ _ _ _ _].
  rewrite !locals_app. cbn [locals locals1]. rewrite (proj2 (locals_ren m0)), locals_resets, app_nil_r, !map_app. f_equal. f_equal.
  rewrite map_map. apply map_ext_in. intros [x d] HI. unfold stem, renp. cbn. destruct (F6 x d) as (k & ->); [apply DS; exact HI|]. rewrite under_snd. reflexivity.
Qed.
Lemma stems_no_capture u pre b post u' p' scn m sc : flatten_one u pre b post u' p' scn m -> 
  resolved (app_s pre (Cons (SBlock b) post)) sc -> NoDup (map snd (locals (app_s pre (Cons (SBlock b) post)))) ->
  stems_distinct (sc ++ locals (app_s pre (Cons (SBlock b) post))) -> no_capture pre b post scn m.
Proof.
  intros F R ND ST x (d & HO & H). destruct (fresh_of _ _ _ _ _ _ _ _ F (NoDup_block _ _ _ ND)) as (ds & DS & [_ _ _ _ _ F6]).
  assert (HS : In (x, d) sc).
  { apply (proj2 uses_scope _ sc x d R); [|exact HO]. rewrite uses_app. cbn [uses uses1]. apply in_or_app. right. apply in_or_app. tauto. }
  assert (C : forall y d', In (y, d') (locals b) -> new_name m d' y = x -> False).
  { intros y d' HI E. destruct (F6 y d') as (k & K); [apply DS; exact HI|]. assert (D : d' = d).
    { apply (ST y d' x d).
      - apply in_or_app. right. rewrite locals_app. cbn [locals locals1]. apply in_or_app. right. apply in_or_app. auto.
      - apply in_or_app. auto.
      - rewrite <- E, K, under_snd. reflexivity. }
    apply HO. rewrite locals_app. cbn [locals locals1]. rewrite !map_app. apply in_or_app. right. apply in_or_app. left.
    apply in_map_iff. exists (y, d'). auto. }
  destruct H as [[_ H]|[_ (y & d' & HI & E & _)]].
  - rewrite direct_ren, map_map in H. apply in_map_iff in H as ([y d'] & E & HI). cbn in E. exact (C y d' (direct_locals _ _ HI) E).
  - exact (C y d' HI E).
Qed.
Lemma step_stems u : (forall s u' s', step1 anything u s u' s' -> forall sc, resolved1 s sc -> NoDup (map snd (locals1 s)) -> stems_distinct (sc ++ locals1 s) ->
      step1 no_capture u s u' s' /\ map stem (locals1 s') = map stem (locals1 s))
  /\ (forall p u' p', step anything u p u' p' -> forall sc, resolved p sc -> NoDup (map snd (locals p)) -> stems_distinct (sc ++ locals p) ->
      step no_capture u p u' p' /\ map stem (locals p') = map stem (locals p)).
Proof.
  assert (SUB : forall (sc a b c : list (name * decl)), stems_distinct (sc ++ a ++ b ++ c) -> stems_distinct (sc ++ b)).
  { intros sc a b c. apply stems_incl. intros p Hp. rewrite !in_app_iff. apply in_app_or in Hp. tauto. }
  apply steps_mut.
  - intros e a b u' a' _ H sc (_ & R & _) ND ST. cbn [locals1] in *. rewrite !map_app in *.
    destruct (H sc R (NoDup_app_l _ _ _ ND) (SUB sc [] _ (locals b) ST)) as [H1 ->]. split; [constructor; exact H1|reflexivity].
  - intros e a b u' b' _ H sc (_ & _ & R) ND ST. cbn [locals1] in *. rewrite !map_app in *.
    destruct (H sc R (NoDup_app_r _ _ _ ND)) as [H1 ->]; [apply (SUB sc (locals a) _ []); rewrite app_nil_r; exact ST|]. split; [constructor; exact H1|reflexivity].
  - intros e b u' b' _ H sc (_ & R) ND ST. destruct (H sc R ND ST) as [H1 E]. split; [constructor; exact H1|exact E].
  - intros b u' b' _ H sc R ND ST. destruct (H sc R ND ST) as [H1 E]. split; [constructor; exact H1|exact E].
  - intros pre b post u' p' scn m F _ sc R ND ST. split; [|exact (flatten_stems _ _ _ _ _ _ _ _ F (NoDup_block _ _ _ ND))].
    apply (here no_capture u pre b post u' p' scn m F). exact (stems_no_capture _ _ _ _ _ _ _ _ sc F R ND ST).
  - intros pre s post u' s' K H sc R ND ST. apply resolved_app in R as [_ [R _]]. rewrite !locals_app in *. cbn [locals] in *. rewrite !map_app in *.
    destruct (H _ R (NoDup_mid _ _ _ _ ND)) as [H1 ->]; [|split; [constructor; exact H1|reflexivity]].
    revert ST. apply stems_incl. intros p Hp. rewrite !in_app_iff in *. destruct Hp as [[Hp|Hp]|Hp]; auto.
    apply in_rev in Hp. apply direct_locals in Hp. auto.
Qed.
Lemma steps_stems u p u' p' sc : steps anything u p u' p' -> good sc p -> stems_distinct (sc ++ locals p) -> steps no_capture u p u' p'.
Proof.
  induction 1 as [u p|u p u1 p1 u2 p2 H _ IH|u p u2 p2 _ IH]; intros G ST.
  - apply no_step.
  - destruct (proj2 (step_stems u) _ _ _ H sc (proj1 G) (NoDup_app_r _ _ _ (proj2 G)) ST) as [H1 E]. eapply a_step; [exact H1|].
    apply IH; [exact (step_good _ _ _ _ _ H1 G)|]. revert ST. apply stems_eq. rewrite !map_app, E. reflexivity.
  - apply new_run. auto.
Qed.
