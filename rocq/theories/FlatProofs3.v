(** Folding keeps names resolved, and does not change what the program does. *)
From Coq Require Import List Bool Arith Lia FinFun.
From Verif Require Import FlatModel FlatSpec FlatProofs FlatProofs2.
Import ListNotations.

Lemma rev_direct_cons s r (sc : scope) : rev (direct (Cons s r)) ++ sc = rev (direct r) ++ opened s sc.
Proof. destruct s; cbn; rewrite <- ?app_assoc; reflexivity. Qed.
Lemma NoDup_after pre : forall r (sc : scope), NoDup (map snd sc ++ map snd (locals (app_s pre r))) -> NoDup (map snd (rev (direct pre) ++ sc) ++ map snd (locals r)).
Proof.
  induction pre as [|s pre IH]; intros r sc H; [exact H|]. rewrite rev_direct_cons. apply IH. apply NoDup_open. exact H.
Qed.
Lemma NoDup_head (sc : scope) s r : NoDup (map snd sc ++ map snd (locals (Cons s r))) -> NoDup (map snd sc ++ map snd (locals1 s)).
Proof. cbn [locals]. rewrite map_app. intros H. apply NoDup_drop in H. tauto. Qed.
Lemma NoDup_sub (ds l : list (name * decl)) : NoDup ds -> incl ds l -> NoDup (map snd l) -> NoDup (map snd ds).
Proof.
  induction ds as [|[x d] ds IH]; cbn; intros ND HI HL; [constructor|]. inversion ND as [|? ? N1 N2]; subst. constructor.
  - intros X. apply in_map_iff in X as ([y d'] & E & HX). cbn in E. subst d'.
    assert (E : (y, d) = (x, d)); [|rewrite E in HX; contradiction].
    assert (U : forall l : list (name * decl), NoDup (map snd l) -> forall a b, In a l -> In b l -> snd a = snd b -> a = b).
    { clear. induction l as [|p l IH]; cbn; intros ND a b Ha Hb E; [destruct Ha|]. inversion ND as [|? ? N1 N2]; subst.
      destruct Ha as [<-|Ha], Hb as [<-|Hb]; [reflexivity| | |auto]; exfalso; apply N1; apply in_map_iff; [exists b|exists a]; auto. }
    apply (U l HL); [apply HI; right; exact HX|apply HI; left; reflexivity|reflexivity].
  - apply IH; auto. intros p Hp. apply HI. right. exact Hp.
Qed.

(** ** One block *)
Section here.
  Context (u : used_ids) (pre b post : stmts) (u' : used_ids) (p' : stmts) (scn : list name) (m : list (decl * name)) (sc : scope).
  Context (F : flatten_one u pre b post u' p' scn m) (NC : no_capture pre b post scn m)
    (R : resolved (app_s pre (Cons (SBlock b) post)) sc) (ND : NoDup (map snd sc ++ map snd (locals (app_s pre (Cons (SBlock b) post))))).
  Let S := rev (direct pre) ++ sc.
  Lemma here_ok : resolved p' sc /\ (forall fuel h1 h2 out, alike sc h1 h2 ->
      simi sc (rev (direct post) ++ S) (irun fuel (app_s pre (Cons (SBlock b) post)) (h1, out)) (irun fuel p' (h2, out))).
  Proof.
    destruct F as [scn ds rs m KN DS NDS RA RS].
    pose proof (NoDup_after _ _ _ ND) as ND1. fold S in ND1. pose proof (NoDup_head _ _ _ ND1) as NDb. cbn [locals1] in NDb.
    pose proof (NoDup_app_r _ _ _ NDb) as NDl.
    assert (NDd : NoDup (map snd ds)) by (apply (NoDup_sub ds (locals b) NDS); [intros p Hp; apply DS; exact Hp|exact NDl]).
    destruct (rename_all_ok _ _ _ _ _ RA NDd) as [F1 F2 F3 F4 F5 F6].
    assert (Hout : forall d, In d (map snd S) -> ~ In d (map snd (locals b))) by (intros d; apply NoDup_app_disj; exact NDb).
    assert (Hout' : forall d, In d (map snd sc) -> ~ In d (map snd (locals (app_s pre (Cons (SBlock b) post))))) by (intros d; apply NoDup_app_disj; exact ND).
    assert (Hinj : forall x d y d', In (x, d) (locals b) -> In (y, d') (locals b) -> new_name m d x = new_name m d' y -> d = d').
    { intros x d y d' H1 H2. apply F2; apply DS; assumption. }
    assert (Helse : forall x d, ~ In d (map snd (locals b)) -> new_name m d x = x).
    { intros x d H. apply F3. intros X. apply H. apply in_map_iff in X as (p & <- & X). apply in_map, DS, X. }
    assert (Hpre : forall x d y d', In (x, d) (direct pre) -> In (y, d') (locals b) -> new_name m d' y <> x).
    { intros x d y d' H1 H2 E. destruct (F1 y d') as [G1 G2]; [apply DS; exact H2|]. rewrite E in *.
      destruct (KN x d) as [K|K]; [apply in_or_app; auto|contradiction|]. destruct G1 as [G1|G1]; rewrite K in G1; [discriminate|].
      assert (D : d' = d) by congruence. apply (Hout d').
      - unfold S. rewrite map_app, map_rev. apply in_or_app. left. apply -> in_rev. apply in_map_iff. exists (x, d). auto.
      - apply in_map_iff. exists (y, d'). auto. }
    apply resolved_app in R as [Rpre R']. fold S in R'. cbn [resolved resolved1 opened] in R'. destruct R' as [Rb Rpost].
    assert (Hcap : forall x d y d', In (x, d) (uses b) -> refers x d S -> In (y, d') (locals b) -> y <> x -> new_name m d' y <> x).
    { intros x d y d' HU HR HY N E. apply refers_in in HR. unfold S in HR. apply in_app_or in HR as [HR|HR].
      - apply in_rev in HR. apply (Hpre x d y d'); auto.
      - apply (NC x). exists d. split; [apply Hout'; apply in_map_iff; exists (x, d); auto|]. right. split; [exact HU|]. exists y, d'. auto. }
    assert (Rren : resolved (ren m b) S).
    { apply (proj2 (resolved_ren (locals b) m S (uses b) Hinj Helse Hout Hcap) b []); cbn; auto using incl_refl. intros p []. }
    assert (Rres : resolved (resets rs) (rev (direct (ren m b)) ++ S)).
    { clear -RS Hinj. induction rs as [|[x d] rs IH]; cbn [resets resolved resolved1 opened]; [cbn; auto|]. split; [|apply IH; intros p Hp; apply RS; right; exact Hp].
      split; [|intros y d' []]. apply refers_front. apply refers_unique.
      - apply -> in_rev. apply RS. left. reflexivity.
      - intros d' X. apply in_rev in X. assert (Y : In (x, d) (direct (ren m b))) by (apply RS; left; reflexivity).
        rewrite direct_ren in X, Y. apply in_map_iff in X as ([x1 d1] & E1 & X), Y as ([x2 d2] & E2 & Y). unfold renp in *. cbn in *.
        inversion E1; inversion E2; subst. apply direct_locals in X, Y. apply (Hinj x1 d' x2 d); auto. }
    assert (Rp : resolved post (rev (direct (ren m b)) ++ S)).
    { apply (proj2 (resolved_more (rev (direct (ren m b))) S) post []); cbn; [exact Rpost|]. intros x d HU HI X.
      rewrite map_rev in X. apply in_rev in X. pose proof X as X0. rewrite direct_ren, map_map in X. apply in_map_iff in X as ([y d'] & E & X). cbn in E.
      unfold S in HI. apply in_app_or in HI as [HI|HI].
      - apply in_rev in HI. apply (Hpre x d y d'); auto. apply direct_locals. exact X.
      - apply (NC x). exists d. split; [apply Hout'; apply in_map_iff; exists (x, d); auto|]. left. auto. }
    split.
    - apply resolved_app. split; [exact Rpre|]. fold S. apply resolved_app. split; [apply resolved_app; auto|].
      rewrite direct_app, direct_resets, app_nil_r. exact Rp.
    - intros fuel h1 h2 out A. rewrite !irun_app.
      destruct (proj2 only_scope pre fuel sc h1 h2 out Rpre A) as (X & Y & Z & W). fold S in W.
      destruct (irun fuel pre (h1, out)) as [o1 [g1 out1]], (irun fuel pre (h2, out)) as [o2 [g2 out2]]. cbn [fst snd] in *. subst o2 out2.
      assert (IS : forall g1 g2, alike S g1 g2 -> alike sc g1 g2).
      { intros k1 k2 HA d HI. apply HA. unfold S. rewrite map_app. apply in_or_app. auto. }
      destruct o1; try (unfold simi; cbn; repeat split; auto; congruence). specialize (W eq_refl).
      cbn [irun irun1]. rewrite !irun_app, (proj2 (irun_ren m)).
      destruct (proj2 only_scope b fuel S g1 g2 out1 Rb W) as (X2 & Y2 & Z2 & _).
      destruct (irun fuel b (g1, out1)) as [o3 [g3 out3]], (irun fuel b (g2, out1)) as [o4 [g4 out4]]. cbn [fst snd] in *. subst o4 out4.
      destruct o3; try (unfold simi; cbn; repeat split; auto; congruence).
      destruct (irun_resets fuel rs g4 out3) as (g5 & -> & K).
      assert (A5 : alike S g3 g5).
      { intros d HI. rewrite (Z2 d HI). symmetry. apply K. intros X. apply in_map_iff in X as ([x e] & E & X). cbn in E. subst e.
        apply RS in X. rewrite direct_ren in X. apply in_map_iff in X as ([y d'] & E & X). unfold renp in E. cbn in E. inversion E; subst.
        apply (Hout d HI). apply in_map_iff. exists (y, d). split; [reflexivity|apply direct_locals; exact X]. }
      destruct (proj2 only_scope post fuel S g3 g5 out3 Rpost A5) as (X3 & Y3 & Z3 & W3). repeat split; auto.
  Qed.
End here.

(** ** Anywhere *)
Scheme step1_ind' := Minimality for step1 Sort Prop with step_ind' := Minimality for step Sort Prop.
Combined Scheme steps_mut from step1_ind', step_ind'.
Lemma simi_scope (sc sc' : scope) r1 r2 : simi sc sc' r1 r2 -> simi sc sc r1 r2.
Proof. intros (A & B & C & _). repeat split; auto. Qed.

Definition keeps1 (s s' : stmt) : Prop := map snd (locals1 s') = map snd (locals1 s) /\ (forall sc, opened s sc = sc) /\ (forall sc, opened s' sc = sc)
  /\ forall sc, resolved1 s sc -> NoDup (map snd sc ++ map snd (locals1 s)) -> resolved1 s' sc /\
    forall fuel h1 h2 out, alike sc h1 h2 -> simi sc sc (irun1 fuel s (h1, out)) (irun1 fuel s' (h2, out)).
Definition keeps (p p' : stmts) : Prop := map snd (locals p') = map snd (locals p)
  /\ forall sc, resolved p sc -> NoDup (map snd sc ++ map snd (locals p)) -> resolved p' sc /\
    forall fuel h1 h2 out, alike sc h1 h2 -> simi sc (rev (direct p) ++ sc) (irun fuel p (h1, out)) (irun fuel p' (h2, out)).

Lemma step_keeps u : (forall s u' s', step1 no_capture u s u' s' -> keeps1 s s') /\ (forall p u' p', step no_capture u p u' p' -> keeps p p').
Proof.
  apply steps_mut.
  - intros e a b u' a' _ [E H]. split; [cbn; rewrite !map_app, E; reflexivity|]. split; [reflexivity|]. split; [reflexivity|].
    intros sc (H1 & H2 & H3) ND. cbn [locals1] in ND. rewrite map_app in ND. apply NoDup_drop in ND as [_ ND]. destruct (H sc H2 ND) as [K1 K2].
    split; [cbn; auto|]. intros fuel h1 h2 out A. cbn [irun1]. rewrite (alike_ev sc h1 h2 e A H1). destruct (iev h2 e =? 0).
    + eapply simi_scope. apply only_scope; eauto.
    + eapply simi_scope. apply K2. exact A.
  - intros e a b u' b' _ [E H]. split; [cbn; rewrite !map_app, E; reflexivity|]. split; [reflexivity|]. split; [reflexivity|].
    intros sc (H1 & H2 & H3) ND. cbn [locals1] in ND. rewrite map_app in ND. apply NoDup_drop in ND as [ND _]. destruct (H sc H3 ND) as [K1 K2].
    split; [cbn; auto|]. intros fuel h1 h2 out A. cbn [irun1]. rewrite (alike_ev sc h1 h2 e A H1). destruct (iev h2 e =? 0).
    + eapply simi_scope. apply K2. exact A.
    + eapply simi_scope. apply only_scope; eauto.
  - intros e b u' b' _ [E H]. split; [exact E|]. split; [reflexivity|]. split; [reflexivity|].
    intros sc (H1 & H2) ND. cbn [locals1] in ND. destruct (H sc H2 ND) as [K1 K2].
    split; [cbn; auto|]. intros fuel h1 h2 out A. cbn [irun1]. apply while_simi; [exact H1| |exact A].
    intros g1 g2 o A1. eexists. apply K2. exact A1.
  - intros b u' b' _ [E H]. split; [exact E|]. split; [reflexivity|]. split; [reflexivity|].
    intros sc H1 ND. cbn [locals1] in ND. destruct (H sc H1 ND) as [K1 K2].
    split; [cbn; auto|]. intros fuel h1 h2 out A. cbn [irun1]. eapply simi_scope. apply K2. exact A.
  - intros pre b post u' p' scn m F NC. split; [exact (flatten_locals _ _ _ _ _ _ _ _ F)|]. intros sc R ND.
    destruct (here_ok _ _ _ _ _ _ _ _ sc F NC R ND) as [K1 K2]. split; [exact K1|]. intros fuel h1 h2 out A.
    rewrite direct_app. cbn [direct]. rewrite rev_app_distr, <- app_assoc. apply K2. exact A.
  - intros pre s post u' s' _ (E & O1 & O2 & H). split; [rewrite !locals_app; cbn [locals]; rewrite !map_app, E; reflexivity|].
    intros sc R ND. apply resolved_app in R as [R1 R2]. cbn [resolved] in R2. destruct R2 as [R2 R3]. rewrite O1 in R3.
    pose proof (NoDup_head _ _ _ (NoDup_after _ _ _ ND)) as ND1. destruct (H _ R2 ND1) as [K1 K2]. split.
    + apply resolved_app. split; [exact R1|]. cbn [resolved]. rewrite O2. auto.
    + intros fuel h1 h2 out A. rewrite !irun_app. rewrite direct_app, rev_app_distr, <- app_assoc, rev_direct_cons, O1.
      destruct (proj2 only_scope pre fuel sc h1 h2 out R1 A) as (X & Y & Z & W). set (S := rev (direct pre) ++ sc) in *.
      destruct (irun fuel pre (h1, out)) as [o1 [g1 out1]], (irun fuel pre (h2, out)) as [o2 [g2 out2]]. cbn [fst snd] in *. subst o2 out2.
      assert (IS : forall g1 g2, alike S g1 g2 -> alike sc g1 g2).
      { intros k1 k2 HA d HI. apply HA. unfold S. rewrite map_app. apply in_or_app. auto. }
      destruct o1; try (unfold simi; cbn; repeat split; auto; congruence). specialize (W eq_refl). cbn [irun].
      destruct (K2 fuel g1 g2 out1 W) as (X2 & Y2 & Z2 & _).
      destruct (irun1 fuel s (g1, out1)) as [o3 [g3 out3]], (irun1 fuel s' (g2, out1)) as [o4 [g4 out4]]. cbn [fst snd] in *. subst o4 out4.
      destruct o3; try (unfold simi; cbn; repeat split; auto; congruence).
      destruct (proj2 only_scope post fuel S g3 g4 out3 R3 Z2) as (X3 & Y3 & Z3 & W3). repeat split; auto.
Qed.

Lemma env_any (sc : scope) : NoDup (map snd sc) -> forall v : env, map fst v = map fst sc -> exists h, v = env_of h sc.
Proof.
  induction sc as [|[x d] sc IH]; cbn; intros ND v E.
  - exists (fun _ => 0). destruct v; [reflexivity|discriminate].
  - destruct v as [|[y n] v]; [discriminate|]. cbn in E. inversion E; subst. inversion ND as [|? ? N1 N2]; subst.
    destruct (IH N2 v ltac:(assumption)) as (h & ->). exists (upd h d n). cbn. rewrite upd_eq. f_equal. symmetry. apply env_upd. exact N1.
Qed.
Lemma step_good u p u' p' sc : step no_capture u p u' p' -> good sc p -> good sc p'.
Proof.
  intros H [R ND]. destruct (proj2 (step_keeps u) _ _ _ H) as [E K]. split; [apply K; assumption|]. rewrite E. exact ND.
Qed.
Lemma step_observe u p u' p' sc : step no_capture u p u' p' -> good sc p -> forall fuel v, map fst v = map fst sc -> observe fuel p' v = observe fuel p v.
Proof.
  intros H G fuel v E. pose proof (step_good _ _ _ _ _ H G) as G'. destruct (env_any sc (NoDup_app_l _ _ _ (proj2 G)) v E) as (h & ->).
  rewrite !observe_decls by assumption. destruct (proj2 (step_keeps u) _ _ _ H) as [_ K]. destruct G as [R ND].
  destruct (proj2 (K sc R ND) fuel h h [] ltac:(intros ? ?; reflexivity)) as (X & Y & _). congruence.
Qed.
