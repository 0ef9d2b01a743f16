(** Proofs: containers *)
From Coq Require Import List Bool Arith Lia.
From Verif Require Import UlfModel UlfSpec UlfProofs UlfProofs2.
Import ListNotations.

Definition cont (d : option name) (s : st) (acc : list val) : Prop :=
  match d with None => True | Some x => get (self (sw s)) x = Some (VList acc) end.

Lemma parsed_app a b : parsed (a ++ b) = parsed a ++ parsed b.
Proof. induction a as [|[] a IH]; cbn; try rewrite IH; reflexivity. Qed.
Lemma each_app a b : each_vals (a ++ b) = each_vals a ++ each_vals b.
Proof. induction a as [|[] a IH]; cbn; try rewrite IH; reflexivity. Qed.
Lemma wrapped_parsed t : wrapped t -> parsed t = [] /\ each_vals t = [] /\ forall f v w, ~ In (EvEach f v w) t.
Proof. intros [-> |[[x ->]|[x ->]]]; cbn; intuition congruence. Qed.

Ltac tame_case :=
  match goal with HH : ?m ?s = (?r, ?s') |- self (sw ?s') = _ =>
    let T := fresh in assert (T : tame m);
      [repeat first [apply pure_tame, pure_ret | apply pure_tame, pure_throw | apply pure_tame, pure_gets | apply pure_tame, pure_eval
        | apply tame_take | apply tame_putin | apply tame_bind; [|intros] | match goal with |- tame (if ?x then _ else _) => destruct x end]
      |apply T in HH; destruct HH as [_ ->]; reflexivity] end.
(** parsing an element leaves the fields of the unit alone, unless it is a container with hooks *)
Lemma type_self fuel t id s r s' : (match t with TList _ _ _ => False | _ => True end) -> p_type fuel t id None s = (r, s') ->
  r <> Div -> self (sw s') = self (sw s).
Proof.
  intros Ht H Hr. destruct t; cbn [p_type] in H; try contradiction.
  1-5: tame_case.
  apply bind_inv in H as [(w & s1 & E1 & H)|[(e & E1 & ->)|[E1 ->]]]; try (cbv in E1; discriminate).
  apply gets_inv in E1 as [E1 ->]. inversion E1; subst w.
  apply bind_inv in H as [([] & s1 & E2 & H)|[(e & E2 & ->)|[E2 ->]]]; try (cbv in E2; discriminate).
  destruct (wrap EvSub (p_unit fuel u) s1) as [r1 s2]. destruct r1; cbv in H; inversion H; subst; try reflexivity. congruence.
Qed.

Lemma push_ok d v acc s a s' : push d v acc s = (Ok a, s') -> cont d s acc -> a = acc ++ [v] /\ cont d s' (acc ++ [v]) /\ sin s' = sin s.
Proof.
  destruct d as [x|]; cbn [push cont].
  - intros H C. apply bind_inv in H as [(w & s1 & E1 & H)|[(e & _ & X)|[_ X]]]; try discriminate.
    apply gets_inv in E1 as [E1 ->]. inversion E1; subst w. rewrite C in H.
    apply bind_inv in H as [([] & s1 & E2 & H)|[(e & _ & X)|[_ X]]]; try discriminate.
    apply set_self_inv in E2 as [_ ->]. apply ret_inv in H as [H ->]. inversion H. cbn. rewrite Nat.eqb_refl. auto.
  - intros H _. apply ret_inv in H as [H ->]. inversion H. auto.
Qed.

Definition before_of (m : lmode) (v : val) (w : world) (b : bool) : Prop :=
  match m with LUntil c => c w v = Val b | LWhile c => c w v = Val (negb b) | _ => b = false end.

Lemma new_item_ok f m each reqs d v acc s stop acc' s' :
  new_item f m each reqs d v acc s = (Ok (stop, acc'), s') ->
  exists b r s2, before_of m v (sw s) b /\ run_each f each v b s = (Ok r, s2)
    /\ Forall (fun q => q (sw s) v = Val true) reqs
    /\ ((r = true /\ stop = true /\ acc' = acc /\ s' = s2)
        \/ (r = false /\ exists s3, push d v acc s2 = (Ok acc', s3) /\ s' = s3
              /\ match m with LUntilIncl c => c (sw s3) v = Val stop | _ => stop = false end)).
Proof.
  intros H.
  assert (Tail : forall b s, (do s0 <- run_each f each v b; do a <- push_elem d v s0 acc; ret (s0, a)) s = (Ok (stop, acc'), s') ->
    exists r s2, run_each f each v b s = (Ok r, s2) /\
      ((r = true /\ stop = true /\ acc' = acc /\ s' = s2) \/ (r = false /\ exists s3, push d v acc s2 = (Ok acc', s3) /\ s' = s3 /\ stop = false))).
  { intros b s0 K. apply bind_inv in K as [(r & s2 & E1 & K)|[(e & _ & X)|[_ X]]]; try discriminate.
    exists r, s2. split; [exact E1|].
    apply bind_inv in K as [(a & s3 & E2 & K)|[(e & _ & X)|[_ X]]]; try discriminate.
    apply ret_inv in K as [K ->]. inversion K; subst. unfold push_elem in E2.
    destruct r; [left; apply ret_inv in E2 as [E2 ->]; inversion E2; auto|right; eauto 6]. }
  assert (Rq : forall A s (k : M A) (r : A), (requires reqs v;; k) s = (Ok r, s') -> Forall (fun q => q (sw s) v = Val true) reqs /\ k s = (Ok r, s')).
  { intros A s0 k r K. apply bind_inv in K as [([] & s1 & E1 & K)|[(e & _ & X)|[_ X]]]; try discriminate.
    pose proof (pure_requires _ _ _ _ _ E1). subst. apply requires_ok in E1. auto. }
  destruct m as [n| |c|c|c]; cbn [new_item] in H; cbn [before_of].
  - apply Rq in H as [R H]. destruct (Tail _ _ H) as (r & s2 & E1 & E2). exists false, r, s2. auto.
  - apply Rq in H as [R H]. destruct (Tail _ _ H) as (r & s2 & E1 & E2). exists false, r, s2. auto.
  - apply bind_inv in H as [(b & s1 & E & H)|[(e & _ & X)|[_ X]]]; try discriminate.
    apply eval_inv in E as [-> [(b' & E & Eb)|(x & _ & X)]]; [|discriminate]. inversion Eb; subst b'.
    apply Rq in H as [R H]. destruct (Tail _ _ H) as (r & s2 & E1 & E2). exists b, r, s2. auto.
  - apply Rq in H as [R H]. apply bind_inv in H as [(r & s2 & E1 & K)|[(e & _ & X)|[_ X]]]; try discriminate.
    exists false, r, s2. split; [reflexivity|]. split; [exact E1|]. split; [exact R|].
    apply bind_inv in K as [(a & s3 & E2 & K)|[(e & _ & X)|[_ X]]]; try discriminate.
    unfold push_elem in E2. destruct r.
    + left. apply ret_inv in E2 as [E2 ->]. inversion E2; subst. apply ret_inv in K as [K ->]. inversion K. auto.
    + right. split; [reflexivity|]. exists s3.
      apply bind_inv in K as [(b & s4 & E & K)|[(e & _ & X)|[_ X]]]; try discriminate.
      apply eval_inv in E as [-> [(b' & E & Eb)|(x & _ & X)]]; [|discriminate]. inversion Eb; subst b'.
      apply ret_inv in K as [K ->]. inversion K; subst. auto.
  - apply bind_inv in H as [(b & s1 & E & H)|[(e & _ & X)|[_ X]]]; try discriminate.
    apply eval_inv in E as [-> [(b' & E & Eb)|(x & _ & X)]]; [|discriminate]. inversion Eb; subst b'.
    apply Rq in H as [R H]. destruct (Tail _ _ H) as (r & s2 & E1 & E2). exists (negb b), r, s2. rewrite negb_involutive. auto.
Qed.

(** one element *)
Record step (f : name) (each : option hookS) (before after : val -> bool) (d : option name) (acc : list val) (stop : bool) (acc' : list val)
  (t : list event) (v : val) : Prop := {
  st_parsed : parsed t = [v];
  st_sees : forall a f' v' w b, t = a ++ EvEach f' v' w :: b ->
     v' = v /\ parsed a = [v] /\ match d with None => True | Some x => get (self w) x = Some (VList acc) end;
  st_case :
    (stop = after v /\ acc' = acc ++ [v] /\ before v = false /\ ran_for each t [v] /\ not_stopped each t)
    \/ (stop = true /\ acc' = acc /\ before v = true /\ ran_for each t [] /\ not_stopped each t)
    \/ (stop = true /\ acc' = acc /\ before v = false /\ ran_for each t [v] /\ stopped_by_hook f each t v) }.

Lemma elem_step fuel el f m each before after d acc s stop acc' s' :
  conditions m before after -> kept d each el -> cont d s acc ->
  p_elem fuel el f m each d acc s = (Ok (stop, acc'), s') ->
  exists t v, str s' = str s ++ t /\ cont d s' acc' /\ step f each before after d acc stop acc' t v.
Proof.
  intros HC HK HD H. destruct el as [ty conv reqs]. cbn [p_elem] in H.
  apply bind_inv in H as [(raw & s1 & E1 & H)|[(e & _ & X)|[_ X]]]; try discriminate.
  destruct (type_events _ _ _ _ _ _ _ E1) as (te & F1 & G1).
  assert (HD1 : cont d s1 acc).
  { destruct d as [x|]; [|exact Logic.I]. cbn in HK |- *. destruct HK as [_ HK].
    rewrite (type_self fuel ty f s (Ok raw) s1); [exact HD|destruct ty; auto|exact E1|discriminate]. }
  apply bind_inv in H as [(v & s2 & E2 & H)|[(e & _ & X)|[_ X]]]; try discriminate.
  pose proof (pure_convert _ _ _ _ _ E2). subst s2. clear E2.
  apply new_item_ok in H as (b & r & s2 & HB & HR & _ & HE).
  destruct (wrapped_parsed _ G1) as (P1 & P2 & P3).
  assert (Hb : b = before v).
  { destruct m; cbn in HB, HC; destruct HC as [C1 C2]; try (rewrite HB; symmetry; apply C1).
    - rewrite C1 in HB. inversion HB. reflexivity.
    - rewrite C1 in HB. inversion HB as [X]. destruct b, (before v); cbn in X; congruence. }
  assert (Ha : forall s3, match m with LUntilIncl c => c (sw s3) v = Val stop | _ => stop = false end -> stop = after v).
  { intros s3. destruct m; cbn in HC; destruct HC as [C1 C2]; try (intros ->; symmetry; apply C2). rewrite C2. intros X. inversion X. reflexivity. }
  assert (SB : forall (t : list event) w tl, (forall f' v' w' , ~ In (EvEach f' v' w') tl) -> te ++ [EvItem v w] ++ tl = t ->
     forall a f' v' w' b', t = a ++ EvEach f' v' w' :: b' -> False).
  { intros t w tl Htl <- a f' v' w' b' X. assert (HI : In (EvEach f' v' w') (te ++ [EvItem v w] ++ tl)) by (rewrite X; apply in_elt).
    apply in_app_or in HI as [HI|HI]; [exact (P3 _ _ _ HI)|]. destruct HI as [HI|HI]; [discriminate|exact (Htl _ _ _ HI)]. }
  apply run_each_cases in HR as [(-> & ER & HN)|(h & -> & Hbf & -> & ER)].
  - inversion ER; subst r. cbn [sin sw str] in *.
    assert (Nt : not_stopped each (te ++ [EvItem v (sw s1)])).
    { intros f' v' w' HI. apply in_app_or in HI as [HI|[HI|[]]]; [exfalso; exact (P3 _ _ _ HI)|discriminate]. }
    assert (Ev0 : each_vals (te ++ [EvItem v (sw s1)]) = []) by (rewrite each_app, P2; reflexivity).
    assert (Ss : forall a f' v' w b0, te ++ [EvItem v (sw s1)] = a ++ EvEach f' v' w :: b0 ->
       v' = v /\ parsed a = [v] /\ match d with None => True | Some x => get (self w) x = Some (VList acc) end).
    { intros a f' v' w b0 X. exfalso. apply (SB (te ++ [EvItem v (sw s1)]) (sw s1) [] (fun _ _ _ F => F) eq_refl a f' v' w b0). exact X. }
    exists (te ++ [EvItem v (sw s1)]), v.
    destruct HE as [(-> & -> & -> & ->)|(-> & s3 & E3 & -> & E4)].
    + cbn [str]. split; [rewrite F1, app_assoc; reflexivity|]. split; [destruct d; exact HD1|]. constructor; [rewrite parsed_app, P1; reflexivity|exact Ss|].
      right. left. unfold ran_for. rewrite Ev0. destruct each; auto 6.
    + destruct HN as [HN|HN]; [discriminate|]. subst each.
      pose proof (quiet_push _ _ _ _ _ _ E3) as S3. apply push_ok in E3 as (-> & C3 & _); [|destruct d; exact HD1].
      split; [rewrite S3; cbn; rewrite F1, app_assoc; reflexivity|]. split; [exact C3|].
      constructor; [rewrite parsed_app, P1; reflexivity|exact Ss|]. left. unfold ran_for. rewrite Ev0. eauto 6.
  - cbn [sin sw str] in *. rewrite Hbf in Hb. destruct (h v (sw s1)) as [[w' hb] he] eqn:Eh. cbn [fst snd] in *.
    destruct he; [discriminate|]. inversion ER; subst r. clear ER.
    assert (HD2 : cont d {| sw := w'; sin := sin s1; str := str s1 ++ [EvItem v (sw s1); EvEach f v (sw s1)] |} acc).
    { destruct d as [x|]; [|exact Logic.I]. cbn in *. destruct HK as [HK _]. specialize (HK v (sw s1)). rewrite Eh in HK. cbn in HK. congruence. }
    set (t := te ++ [EvItem v (sw s1); EvEach f v (sw s1)]).
    assert (Pt : parsed t = [v]) by (unfold t; rewrite parsed_app, P1; reflexivity).
    assert (Et : each_vals t = [v]) by (unfold t; rewrite each_app, P2; reflexivity).
    assert (Ss : forall a f' v' w b0, t = a ++ EvEach f' v' w :: b0 ->
       v' = v /\ parsed a = [v] /\ match d with None => True | Some x => get (self w) x = Some (VList acc) end).
    { intros a f' v' w b0 X. unfold t in X. destruct b0 as [|z b0] using rev_ind.
      - change [EvItem v (sw s1); EvEach f v (sw s1)] with ([EvItem v (sw s1)] ++ [EvEach f v (sw s1)]) in X. rewrite app_assoc in X.
        apply app_inj_tail in X as [<- X]. inversion X; subst. split; [reflexivity|]. split; [rewrite parsed_app, P1; reflexivity|].
        destruct d; [exact HD1|exact Logic.I].
      - exfalso. clear IHb0. change [EvItem v (sw s1); EvEach f v (sw s1)] with ([EvItem v (sw s1)] ++ [EvEach f v (sw s1)]) in X.
        rewrite app_assoc, app_comm_cons, (app_assoc a) in X. apply app_inj_tail in X as [X _].
        apply (SB _ (sw s1) [] (fun _ _ _ F => F) eq_refl a f' v' w b0). exact X. }
    exists t, v.
    destruct HE as [(-> & -> & -> & ->)|(-> & s3 & E3 & -> & E4)].
    + cbn [str]. split; [unfold t; rewrite F1, <- app_assoc; reflexivity|]. split; [exact HD2|].
      constructor; [exact Pt|exact Ss|]. right. right. refine (conj eq_refl (conj eq_refl (conj (eq_sym Hb) (conj Et _)))).
      exists (te ++ [EvItem v (sw s1)]), (sw s1). split; [unfold t; rewrite <- app_assoc; reflexivity|]. cbn. rewrite Eh. reflexivity.
    + pose proof (quiet_push _ _ _ _ _ _ E3) as S3. apply push_ok in E3 as (-> & C3 & _); [|exact HD2].
      split; [unfold t; rewrite S3; cbn [str]; rewrite F1, <- app_assoc; reflexivity|]. split; [exact C3|].
      constructor; [exact Pt|exact Ss|]. left. refine (conj (Ha _ E4) (conj eq_refl (conj (eq_sym Hb) (conj Et _)))).
      intros f' v' w0 HI. unfold t in HI. apply in_app_or in HI as [HI|[HI|[HI|[]]]]; [exfalso; exact (P3 _ _ _ HI)|discriminate|].
      inversion HI; subst. cbn. rewrite Eh. cbn. discriminate.
Qed.

(** a container, from elements [acc] on *)
Definition seen (d : option name) (acc : list val) (t : list event) : Prop :=
  forall a f v w b, t = a ++ EvEach f v w :: b ->
    exists p, parsed a = p ++ [v] /\ match d with None => True | Some x => get (self w) x = Some (VList (acc ++ p)) end.
Lemma split_in A (t1 t2 a b : list A) x : t1 ++ t2 = a ++ x :: b ->
  (exists b1, t1 = a ++ x :: b1 /\ b = b1 ++ t2) \/ (exists a2, a = t1 ++ a2 /\ t2 = a2 ++ x :: b).
Proof.
  revert a. induction t1 as [|y t1 IH]; intros a H; cbn in H.
  - right. exists a. auto.
  - destruct a as [|z a]; cbn in H; inversion H; subst.
    + left. exists t1. auto.
    + match goal with X : _ ++ _ = _ ++ _ :: _ |- _ => destruct (IH _ X) as [(b1 & -> & ->)|(a2 & -> & ->)] end.
      * left. exists b1. auto.
      * right. exists a2. auto.
Qed.
Lemma seen_nil d acc : seen d acc [].
Proof. intros a f v w b H. destruct a; discriminate. Qed.
Lemma step_seen f each before after d acc stop acc' t v : step f each before after d acc stop acc' t v -> seen d acc t.
Proof.
  intros S a f' v' w b H. destruct (st_sees _ _ _ _ _ _ _ _ _ _ S _ _ _ _ _ H) as (-> & P & G). exists []. rewrite app_nil_r. auto.
Qed.
Lemma seen_app d acc v t1 t2 : seen d acc t1 -> seen d (acc ++ [v]) t2 -> parsed t1 = [v] -> seen d acc (t1 ++ t2).
Proof.
  intros S1 S2 P a f' v' w b H. apply split_in in H as [(b1 & -> & _)|(a2 & -> & ->)].
  - eapply S1; reflexivity.
  - destruct (S2 _ _ _ _ _ eq_refl) as (p & Pp & G). exists (v :: p). split; [rewrite parsed_app, P, Pp; reflexivity|].
    destruct d; [|exact Logic.I]. rewrite G, <- app_assoc. reflexivity.
Qed.

Lemma not_stopped_app each a b : not_stopped each a -> not_stopped each b -> not_stopped each (a ++ b).
Proof. intros A B f v w H. apply in_app_or in H as [H|H]; eauto. Qed.
Lemma ran_app each a b x y : ran_for each a x -> ran_for each b y -> ran_for each (a ++ b) (x ++ y).
Proof. unfold ran_for. rewrite each_app. intros -> ->. destruct each; reflexivity. Qed.

Lemma ended_cons f each before after v l t1 t2 :
  parsed t1 = [v] -> ran_for each t1 [v] -> not_stopped each t1 -> before v = false -> after v = false ->
  ended f each before after l t2 -> ended f each before after (v :: l) (t1 ++ t2).
Proof.
  intros P R N B A E.
  assert (Hin : forall l0, (forall x, In x l0 -> before x = false /\ after x = false) -> forall x, In x (v :: l0) -> before x = false /\ after x = false).
  { intros l0 H x [<-|HI]; auto. }
  destruct E as [P2 R2 N2 F|x P2 R2 N2 B2 F|l0 x -> P2 R2 N2 B2 A2 F|x P2 R2 S2 B2 F].
  - apply end_none; [rewrite parsed_app, P, P2; reflexivity|exact (ran_app _ _ _ _ _ R R2)|apply not_stopped_app; assumption|apply Hin; exact F].
  - apply end_before with (x := x); [rewrite parsed_app, P, P2; reflexivity|exact (ran_app _ _ _ _ _ R R2)|apply not_stopped_app; assumption|exact B2|apply Hin; exact F].
  - apply end_after with (l0 := v :: l0) (x := x); [reflexivity|rewrite parsed_app, P, P2; reflexivity|exact (ran_app _ _ _ _ _ R R2)|apply not_stopped_app; assumption|exact B2|exact A2|apply Hin; exact F].
  - apply end_stop with (x := x); [rewrite parsed_app, P, P2; reflexivity|exact (ran_app _ _ _ _ _ R R2)| |exact B2|apply Hin; exact F].
    destruct S2 as (t0 & w & -> & S2). exists (t1 ++ t0), w. rewrite app_assoc. auto.
Qed.
(** the last step *)
Lemma ended_last f each before after d acc l t v :
  step f each before after d acc true l t v -> exists new, l = acc ++ new /\ ended f each before after new t.
Proof.
  intros [P _ [(A & -> & B & R & N)|[(_ & -> & B & R & N)|(_ & -> & B & R & S2)]]].
  - exists [v]. split; [reflexivity|]. apply end_after with (l0 := []) (x := v); auto. cbn. tauto.
  - exists []. rewrite app_nil_r. split; [reflexivity|]. apply end_before with (x := v); auto. cbn. tauto.
  - exists []. rewrite app_nil_r. split; [reflexivity|]. apply end_stop with (x := v); auto. cbn. tauto.
Qed.
Lemma ended_nil f each before after : ended f each before after [] [].
Proof. apply end_none; [reflexivity|unfold ran_for; destruct each; reflexivity|intros ? ? ? []|cbn; tauto]. Qed.


Section Loops.
  Variables (fuel : nat) (el : elem) (f : name) (m : lmode) (each : option hookS) (before after : val -> bool) (d : option name).
  Hypothesis HC : conditions m before after.
  Hypothesis HK : kept d each el.
  Let body := fun acc => p_elem fuel el f m each d acc.

  Lemma foreach_ok n eod acc s l s' : cont d s acc -> foreach n eod body acc s = (Ok l, s') ->
    exists t new, str s' = str s ++ t /\ cont d s' l /\ l = acc ++ new /\ ended f each before after new t /\ seen d acc t
      /\ ((eod = true /\ sin s' = []) \/ length (parsed t) > length new
          \/ exists l0 x, new = l0 ++ [x] /\ after x = true).
  Proof.
    revert acc s. induction n as [|n IH]; intros acc s HD H; cbn [foreach] in H; [discriminate|].
    apply bind_inv in H as [(i & s1 & E1 & H)|[(e & _ & X)|[_ X]]]; try discriminate.
    apply gets_inv in E1 as [Ei ->]. inversion Ei; subst i.
    destruct (eod && (length (sin s) =? 0)) eqn:Ec.
    - apply ret_inv in H as [H ->]. inversion H; subst. exists [], []. rewrite !app_nil_r.
      refine (conj eq_refl (conj HD (conj eq_refl (conj (ended_nil _ _ _ _) (conj (seen_nil _ _) _))))).
      left. apply andb_prop in Ec as [-> Ec]. apply Nat.eqb_eq in Ec. destruct (sin s); [auto|discriminate].
    - apply bind_inv in H as [([stop acc'] & s1 & E1 & H)|[(e & _ & X)|[_ X]]]; try discriminate.
      destruct (elem_step _ _ _ _ _ _ _ _ _ _ _ _ _ HC HK HD E1) as (t1 & v & F1 & D1 & S1). cbn [fst snd] in H.
      pose proof (step_seen _ _ _ _ _ _ _ _ _ _ S1) as Sn1.
      destruct stop.
      + apply ret_inv in H as [H ->]. inversion H; subst acc'. destruct (ended_last _ _ _ _ _ _ _ _ _ S1) as (new & -> & En).
        exists t1, new. refine (conj F1 (conj D1 (conj eq_refl (conj En (conj Sn1 _))))).
        destruct S1 as [P _ [(A & Q1 & B & R & N)|[(_ & Q1 & B & R & N)|(_ & Q1 & B & R & S2)]]].
        * right. right. apply app_inv_head in Q1. subst new. exists [], v. auto.
        * right. left. rewrite P. rewrite <- (app_nil_r acc) in Q1 at 2. apply app_inv_head in Q1. subst new. cbn. lia.
        * right. left. rewrite P. rewrite <- (app_nil_r acc) in Q1 at 2. apply app_inv_head in Q1. subst new. cbn. lia.
      + apply bind_inv in H as [([] & s2 & E2 & H)|[(e & _ & X)|[_ X]]]; try discriminate.
        apply pure_progress in E2. subst s2.
        destruct (st_case _ _ _ _ _ _ _ _ _ _ S1) as [(A & -> & B & R & N)|[(X & _)|(X & _)]]; try discriminate.
        destruct (IH _ _ D1 H) as (t2 & new & F2 & D2 & -> & En & Sn & Z).
        exists (t1 ++ t2), (v :: new). split; [rewrite F2, F1, app_assoc; reflexivity|]. split; [exact D2|].
        split; [rewrite <- app_assoc; reflexivity|]. pose proof (st_parsed _ _ _ _ _ _ _ _ _ _ S1) as P1.
        split; [apply ended_cons; auto|]. split; [eapply seen_app; eauto|].
        destruct Z as [Z|[Z|(l0 & x & -> & Z)]]; [auto|right; left; rewrite parsed_app, P1; cbn; lia|right; right; exists (v :: l0), x; auto].
  Qed.
  Lemma counter_ok n acc s l s' : cont d s acc -> counter n body acc s = (Ok l, s') ->
    exists t new, str s' = str s ++ t /\ cont d s' l /\ l = acc ++ new /\ ended f each before after new t /\ seen d acc t
      /\ ((length new = n /\ parsed t = new) \/ (length new < n /\ length (parsed t) > length new) \/ exists l0 x, new = l0 ++ [x] /\ after x = true).
  Proof.
    revert acc s. induction n as [|n IH]; intros acc s HD H; cbn [counter] in H.
    - apply ret_inv in H as [H ->]. inversion H; subst. exists [], []. rewrite !app_nil_r.
      refine (conj eq_refl (conj HD (conj eq_refl (conj (ended_nil _ _ _ _) (conj (seen_nil _ _) _))))). left. auto.
    - apply bind_inv in H as [([stop acc'] & s1 & E1 & H)|[(e & _ & X)|[_ X]]]; try discriminate.
      destruct (elem_step _ _ _ _ _ _ _ _ _ _ _ _ _ HC HK HD E1) as (t1 & v & F1 & D1 & S1). cbn [fst snd] in H.
      pose proof (step_seen _ _ _ _ _ _ _ _ _ _ S1) as Sn1.
      destruct stop.
      + apply ret_inv in H as [H ->]. inversion H; subst acc'. destruct (ended_last _ _ _ _ _ _ _ _ _ S1) as (new & -> & En).
        exists t1, new. refine (conj F1 (conj D1 (conj eq_refl (conj En (conj Sn1 _))))).
        destruct S1 as [P _ [(A & Q1 & B & R & N)|[(_ & Q1 & B & R & N)|(_ & Q1 & B & R & S2)]]].
        * right. right. apply app_inv_head in Q1. subst new. exists [], v. auto.
        * right. left. rewrite P. rewrite <- (app_nil_r acc) in Q1 at 2. apply app_inv_head in Q1. subst new. cbn. lia.
        * right. left. rewrite P. rewrite <- (app_nil_r acc) in Q1 at 2. apply app_inv_head in Q1. subst new. cbn. lia.
      + destruct (st_case _ _ _ _ _ _ _ _ _ _ S1) as [(A & -> & B & R & N)|[(X & _)|(X & _)]]; try discriminate.
        destruct (IH _ _ D1 H) as (t2 & new & F2 & D2 & -> & En & Sn & Z).
        exists (t1 ++ t2), (v :: new). split; [rewrite F2, F1, app_assoc; reflexivity|]. split; [exact D2|].
        split; [rewrite <- app_assoc; reflexivity|]. pose proof (st_parsed _ _ _ _ _ _ _ _ _ _ S1) as P1.
        split; [apply ended_cons; auto|]. split; [eapply seen_app; eauto|].
        destruct Z as [(Z1 & Z2)|[(Z1 & Z2)|(l0 & x & -> & Z)]];
          [left; rewrite parsed_app, P1, Z2; cbn; auto|right; left; rewrite parsed_app, P1; cbn; lia|right; right; exists (v :: l0), x; auto].
  Qed.
End Loops.

(** parsing a container: [d] is where it is stored *)
Theorem list_ok fuel m el each f d before after s v s' :
  conditions m before after -> kept d each el ->
  p_type fuel (TList m el each) f d s = (Ok v, s') ->
  exists t l, v = VList l /\ str s' = str s ++ [EvList t] /\ ended f each before after l t /\ sees_previous d t
    /\ (match d with None => True | Some x => get (self (sw s')) x = Some (VList l) end)
    /\ match m with
       | LCount n => exists k w, n w VVoid = Val k /\ ((length l = k /\ parsed t = l) \/ (length l < k /\ length (parsed t) > length l))
       | LEod => sin s' = [] \/ length (parsed t) > length l
       | LUntilIncl _ => length (parsed t) > length l \/ exists l0 x, l = l0 ++ [x] /\ after x = true
       | _ => length (parsed t) > length l
       end.
Proof.
  intros HC HK H. cbn [p_type] in H.
  apply bind_inv in H as [([] & s1 & E1 & H)|[(e & _ & X)|[_ X]]]; try discriminate.
  pose proof (quiet_stored _ _ _ _ _ E1) as F1.
  assert (HD : cont d {| sw := sw s1; sin := sin s1; str := [] |} []).
  { destruct d as [x|]; [|exact Logic.I]. apply set_self_inv in E1 as [_ ->]. cbn. rewrite Nat.eqb_refl. reflexivity. }
  unfold wrap in H.
  match type of H with (match ?m ?st with _ => _ end) = _ => destruct (m st) as [r2 s2] eqn:E2 end.
  inversion H; subst r2 s'. clear H. cbn [sw sin str].
  apply bind_inv in E2 as [(l & s3 & E2 & H)|[(e & _ & X)|[_ X]]]; try discriminate.
  assert (Fin : cont d s3 l -> v = VList l /\ s2 = s3).
  { destruct d as [x|]; cbn [cont]; intros C.
    - apply bind_inv in H as [(w & s4 & E4 & H)|[(e & _ & X)|[_ X]]]; try discriminate.
      apply gets_inv in E4 as [E4 ->]. inversion E4; subst w. rewrite C in H. apply ret_inv in H as [H ->]. inversion H. auto.
    - apply ret_inv in H as [H ->]. inversion H. auto. }
  assert (Ha : forall l0 x, (match m with LUntilIncl _ => False | _ => True end) -> l = l0 ++ [x] -> after x = true -> False).
  { intros l0 x Hm _ Hx. destruct m; cbn in HC; destruct HC as [_ HC]; try (rewrite HC in Hx; discriminate). contradiction. }
  destruct m as [n| |c|c|c].
  - apply bind_inv in E2 as [(k & s4 & E4 & E2)|[(e & _ & X)|[_ X]]]; try discriminate.
    apply eval_inv in E4 as [-> [(k' & E4 & Ek)|(x & _ & X)]]; [|discriminate]. inversion Ek; subst k'.
    destruct (counter_ok _ _ _ _ _ _ _ _ HC HK _ _ _ _ _ HD E2) as (t & new & F2 & D2 & El & En & Sn & Z). cbn in El, F2. subst new.
    destruct (Fin D2) as [-> ->]. exists t, l. split; [reflexivity|]. split; [rewrite F1, F2; reflexivity|]. split; [exact En|]. split; [exact Sn|].
    split; [exact D2|]. exists k, (sw s1). split; [exact E4|]. destruct Z as [Z|[Z|(l0 & x & Z1 & Z2)]]; auto. exfalso. eapply Ha; eauto.
  - destruct (foreach_ok _ _ _ _ _ _ _ _ HC HK _ _ _ _ _ _ HD E2) as (t & new & F2 & D2 & El & En & Sn & Z). cbn in El, F2. subst new.
    destruct (Fin D2) as [-> ->]. exists t, l. split; [reflexivity|]. split; [rewrite F1, F2; reflexivity|]. split; [exact En|]. split; [exact Sn|].
    split; [exact D2|]. destruct Z as [[_ Z]|[Z|(l0 & x & Z1 & Z2)]]; auto. exfalso. eapply Ha; eauto.
  - destruct (foreach_ok _ _ _ _ _ _ _ _ HC HK _ _ _ _ _ _ HD E2) as (t & new & F2 & D2 & El & En & Sn & Z). cbn in El, F2. subst new.
    destruct (Fin D2) as [-> ->]. exists t, l. split; [reflexivity|]. split; [rewrite F1, F2; reflexivity|]. split; [exact En|]. split; [exact Sn|].
    split; [exact D2|]. destruct Z as [[Z _]|[Z|(l0 & x & Z1 & Z2)]]; [discriminate|exact Z|]. exfalso. eapply Ha; eauto.
  - destruct (foreach_ok _ _ _ _ _ _ _ _ HC HK _ _ _ _ _ _ HD E2) as (t & new & F2 & D2 & El & En & Sn & Z). cbn in El, F2. subst new.
    destruct (Fin D2) as [-> ->]. exists t, l. split; [reflexivity|]. split; [rewrite F1, F2; reflexivity|]. split; [exact En|]. split; [exact Sn|].
    split; [exact D2|]. destruct Z as [[Z _]|[Z|Z]]; [discriminate|auto|auto].
  - destruct (foreach_ok _ _ _ _ _ _ _ _ HC HK _ _ _ _ _ _ HD E2) as (t & new & F2 & D2 & El & En & Sn & Z). cbn in El, F2. subst new.
    destruct (Fin D2) as [-> ->]. exists t, l. split; [reflexivity|]. split; [rewrite F1, F2; reflexivity|]. split; [exact En|]. split; [exact Sn|].
    split; [exact D2|]. destruct Z as [[Z _]|[Z|(l0 & x & Z1 & Z2)]]; [discriminate|exact Z|]. exfalso. eapply Ha; eauto.
Qed.
