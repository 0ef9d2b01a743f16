(** Proofs: the whole story of a unit *)
From Coq Require Import List Bool Arith Lia.
From Verif Require Import UlfModel UlfSpec UlfProofs UlfProofs2 UlfProofs3 UlfProofs4.
Import ListNotations.

Definition tail_of (error : hookE) (finally : hook0) (r1 r : rs unit) (tl : list event) : Prop :=
  (r1 = Div /\ r = Div /\ tl = [])
  \/ (r1 = Ok tt /\ exists wf, tl = [EvFinally wf] /\ r = match snd (finally wf) with None => Ok tt | Some e => Err e end)
  \/ (exists e0 we, r1 = Err e0 /\
        ((exists e, snd (error e0 we) = Some e /\ r = Err e /\ tl = [EvError e0 we])
         \/ (exists wf, snd (error e0 we) = None /\ wf = fst (error e0 we)
               /\ r = Err (match snd (finally wf) with None => e0 | Some e => e end) /\ tl = [EvError e0 we; EvFinally wf]))).
Lemma stages_gen error finally m K : em m K ->
  em (stages error finally m) (fun r t => exists r1 t1 tl, K r1 t1 /\ t = t1 ++ tl /\ tail_of error finally r1 r tl).
Proof.
  intros Hm s r s' H. unfold stages in H. destruct (m s) as [r1 s1] eqn:E. destruct (Hm _ _ _ E) as (t1 & F1 & G1).
  unfold bind at 1 in H. unfold try_ in H. rewrite E in H. destruct r1 as [[]|e|].
  - apply callc_inv in H as [-> ->]. exists (t1 ++ [EvFinally (sw s1)]). cbn [str]. split; [rewrite F1, app_assoc; reflexivity|].
    exists (Ok tt), t1, [EvFinally (sw s1)]. refine (conj G1 (conj eq_refl _)). right. left. eauto.
  - match type of H with (match ?x with _ => _ end) = _ => destruct x as [r2 s2] eqn:E2 end.
    assert (X : exists tl, str s2 = str s1 ++ tl /\ tail_of error finally (Err e) r2 tl /\ exists e2, r2 = Err e2).
    { apply bind_inv in E2 as [([] & s3 & H3 & H4)|[(e1 & H3 & ->)|[H3 ->]]]; apply callc_inv in H3 as [E3 ->].
      - apply bind_inv in H4 as [([] & s4 & H4 & H5)|[(e1 & H4 & ->)|[H4 ->]]]; apply callc_inv in H4 as [E4 ->]; cbn [sw sin str] in *.
        + apply throw_inv in H5 as [-> ->]. cbn [str]. destruct (snd (error e (sw s1))) eqn:Ee; [discriminate|].
          destruct (snd (finally (fst (error e (sw s1))))) eqn:Ef; [discriminate|].
          exists [EvError e (sw s1); EvFinally (fst (error e (sw s1)))].
          split; [rewrite <- app_assoc; reflexivity|]. split; [|eauto]. right. right. exists e, (sw s1). split; [reflexivity|]. right.
          exists (fst (error e (sw s1))). rewrite Ef. auto.
        + destruct (snd (error e (sw s1))) eqn:Ee; [discriminate|].
          destruct (snd (finally (fst (error e (sw s1))))) eqn:Ef; [|discriminate]. inversion E4; subst.
          exists [EvError e (sw s1); EvFinally (fst (error e (sw s1)))].
          split; [rewrite <- app_assoc; reflexivity|]. split; [|eauto]. right. right. exists e, (sw s1). split; [reflexivity|]. right.
          exists (fst (error e (sw s1))). rewrite Ef. auto.
        + destruct (snd (finally _)); discriminate.
      - destruct (snd (error e (sw s1))) eqn:Ee; [|discriminate]. inversion E3; subst. cbn [str].
        exists [EvError e (sw s1)]. split; [reflexivity|]. split; [|eauto]. right. right. exists e, (sw s1). split; [reflexivity|]. left. eauto.
      - destruct (snd (error e (sw s1))); discriminate. }
    destruct X as (tl & F2 & T & e2 & ->). inversion H; subst.
    exists (t1 ++ tl). split; [rewrite F2, F1, app_assoc; reflexivity|]. exists (Err e), t1, tl. auto.
  - inversion H; subst. exists t1. split; [exact F1|]. exists Div, t1, []. rewrite app_nil_r. refine (conj G1 (conj eq_refl _)). left. auto.
Qed.

(** %init, the fields, the requirements, %done, the size *)
Definition inner_story (u : unit_) (r1 : rs unit) (t1 : list event) : Prop :=
  exists wi mid ri, fine mid /\ Q (fun f => declared f (u_items u)) (way (u_items u)) (written (u_items u)) ri mid /\
   ((r1 <> Ok tt /\ (r1 = Div -> ri = Div) /\ t1 = EvInit wi :: mid)
    \/ (ri = Ok tt /\ exists wd, Forall (fun q => q wd VVoid = Val true) (u_reqs u) /\ t1 = EvInit wi :: mid ++ [EvDone wd]
        /\ ((snd (u_done u wd) = None /\ r1 = Ok tt)
            \/ (exists e, snd (u_done u wd) = Some e /\ r1 = Err e)
            \/ (u_size u <> None /\ snd (u_done u wd) = None /\ r1 = Err e_size)))).
Lemma inner_gen fuel u : match u with Unit init size its reqs done _ _ =>
  em ((do r <- call EvInit init; check r);; limited size (p_items fuel its;; (requires reqs VVoid;; (do r <- call EvDone done; check r)))) (inner_story u) end.
Proof.
  destruct u as [init size its reqs done error finally]. unfold inner_story. cbn [u_items u_reqs u_done u_size].
  set (QQ := Q (fun f => declared f its) (way its) (written its)).
  set (P := fun (r : rs unit) (t : list event) => exists mid ri, fine mid /\ QQ ri mid /\
     ((r <> Ok tt /\ (r = Div -> ri = Div) /\ t = mid)
      \/ (ri = Ok tt /\ exists wd, Forall (fun q => q wd VVoid = Val true) reqs /\ t = mid ++ [EvDone wd]
          /\ ((snd (done wd) = None /\ r = Ok tt) \/ (exists e, snd (done wd) = Some e /\ r = Err e)
              \/ (size <> None /\ snd (done wd) = None /\ r = Err e_size))))).
  assert (N : forall r, r <> Ok tt -> P r []).
  { intros r Hr. exists [], r. split; [apply fine_nil|]. split; [apply Q_nil; congruence|]. left. auto. }
  assert (H1 : em (p_items fuel its;; (requires reqs VVoid;; (do r <- call EvDone done; check r))) P).
  { intros s r s' H.
    destruct all_ends as (_ & HF & _). destruct items_Q as (_ & HQ & _).
    apply bind_inv in H as [([] & s1 & E1 & H2)|[(e & E1 & ->)|[E1 ->]]];
      destruct (HF its fuel _ _ _ E1) as (t & F & G); destruct (HQ its fuel _ _ _ E1) as (t' & F' & G');
      assert (t' = t) by (rewrite F in F'; apply app_inv_head in F'; congruence); subst t'.
    2: { exists t. split; [exact F|]. exists t, (Err e). refine (conj G (conj G' _)). left. split; [discriminate|auto]. }
    2: { exists t. split; [exact F|]. exists t, Div. refine (conj G (conj G' _)). left. split; [discriminate|auto]. }
    apply bind_inv in H2 as [([] & s2 & E2 & H3)|[(e & E2 & ->)|[E2 ->]]]; pose proof (pure_requires _ _ _ _ _ E2); subst.
    - apply requires_ok in E2. apply callc_inv in H3 as [-> ->]. exists (t ++ [EvDone (sw s1)]). cbn [str].
      split; [rewrite F, app_assoc; reflexivity|]. exists t, (Ok tt). refine (conj G (conj G' _)). right. split; [reflexivity|].
      exists (sw s1). refine (conj E2 (conj eq_refl _)). destruct (snd (done (sw s1))) eqn:Ed; [right; left; eauto|left; auto].
    - exists t. split; [exact F|]. exists t, (Ok tt). refine (conj G (conj G' _)). left. split; [discriminate|split; [discriminate|reflexivity]].
    - exfalso. apply safe_requires in E2 as [E2 _]. congruence. }
  assert (H2 : em (limited size (p_items fuel its;; (requires reqs VVoid;; (do r <- call EvDone done; check r)))) P).
  { destruct size as [n|]; cbn [limited]; [|exact H1]. intros s r s' H.
    apply bind_inv in H as [(k & s1 & E1 & H)|[(e & E1 & ->)|[E1 ->]]]; apply pure_eval in E1; subst s1 || subst s'.
    2,3: exists []; rewrite app_nil_r; split; [reflexivity|apply N; discriminate].
    apply bind_inv in H as [(i & s1 & E1 & H)|[(e & E1 & ->)|[E1 ->]]]; try (cbv in E1; discriminate).
    apply gets_inv in E1 as [_ ->].
    apply bind_inv in H as [([] & s1 & E1 & H)|[(e & E1 & ->)|[E1 ->]]]; try (cbv in E1; discriminate).
    assert (Hs : str s1 = str s) by (apply (tame_putin _ _ _ _ E1)). clear E1.
    apply bind_inv in H as [([] & s2 & E1 & H)|[(e & E1 & ->)|[E1 ->]]]; destruct (H1 _ _ _ E1) as (t & F & G); rewrite Hs in F.
    2,3: exists t; split; assumption.
    assert (X : str s' = str s2 /\ (r = Ok tt \/ r = Err e_size)).
    { apply bind_inv in H as [(x & s3 & E3 & H)|[(e & E3 & ->)|[E3 ->]]]; try (cbv in E3; discriminate).
      apply gets_inv in E3 as [_ ->]. destruct (_ || _).
      - apply throw_inv in H as [-> ->]. auto.
      - inversion H. auto. }
    destruct X as [X1 X2]. exists t. split; [congruence|].
    destruct G as (mid & ri & G1 & G2 & [(G3 & _)|(-> & wd & R & -> & [[D _]|[(e & _ & X)|(_ & _ & X)]])]); try congruence; try discriminate.
    exists mid, (Ok tt). refine (conj G1 (conj G2 _)). right. split; [reflexivity|]. exists wd. refine (conj R (conj eq_refl _)).
    destruct X2 as [-> | ->]; [left; auto|]. right. right. split; [discriminate|auto]. }
  intros s r s' H. apply bind_inv in H as [([] & s1 & E1 & H)|[(e & E1 & ->)|[E1 ->]]]; apply callc_inv in E1 as [E ->].
  - destruct (H2 _ _ _ H) as (t & F & mid & ri & G1 & G2 & G3). cbn [str] in F. exists (EvInit (sw s) :: t).
    split; [rewrite F, <- app_assoc; reflexivity|]. exists (sw s), mid, ri. refine (conj G1 (conj G2 _)).
    destruct G3 as [(G3 & G4 & ->)|(-> & wd & R & -> & G3)]; [left; auto|right; split; [reflexivity|]; exists wd; auto].
  - cbn [str]. exists [EvInit (sw s)]. split; [reflexivity|]. destruct (N (Err e)) as (mid & ri & G1 & G2 & [(_ & _ & G3)|(_ & wd & _ & X & _)]); [discriminate| |destruct mid; discriminate].
    subst mid. exists (sw s), [], ri. refine (conj G1 (conj G2 _)). left. split; [discriminate|split; [discriminate|reflexivity]].
  - destruct (snd (init (sw s))); discriminate.
Qed.

Theorem unit_story fuel u s r s' : p_unit fuel u s = (r, s') ->
  exists t wi mid ri dn tl, str s' = str s ++ t /\ t = EvInit wi :: mid ++ dn ++ tl
    /\ fine mid /\ Q (fun f => declared f (u_items u)) (way (u_items u)) (written (u_items u)) ri mid
    /\ (dn = [] \/ exists wd, dn = [EvDone wd] /\ ri = Ok tt /\ Forall (fun q => q wd VVoid = Val true) (u_reqs u))
    /\ ((r = Div /\ ri = Div /\ dn = [] /\ tl = [])
        \/ (exists wd wf, dn = [EvDone wd] /\ snd (u_done u wd) = None /\ tl = [EvFinally wf]
              /\ r = match snd (u_finally u wf) with None => Ok tt | Some e => Err e end)
        \/ (exists e0 we,
              (dn = [] \/ exists wd, dn = [EvDone wd] /\ (snd (u_done u wd) = Some e0 \/ (u_size u <> None /\ e0 = e_size)))
              /\ ((exists e, snd (u_error u e0 we) = Some e /\ r = Err e /\ tl = [EvError e0 we])
                  \/ (exists wf, snd (u_error u e0 we) = None /\ wf = fst (u_error u e0 we)
                        /\ r = Err (match snd (u_finally u wf) with None => e0 | Some e => e end) /\ tl = [EvError e0 we; EvFinally wf])))).
Proof.
  intros H. pose proof (inner_gen fuel u) as HI. destruct u as [init size its reqs done error finally] eqn:Eu. cbn [p_unit] in H.
  destruct (stages_gen error finally _ _ HI _ _ _ H) as (t & F & r1 & t1 & tl & (wi & mid & ri & G1 & G2 & G3) & -> & T).
  rewrite <- Eu in *.
  destruct G3 as [(G3 & G4 & ->)|(-> & wd & R & -> & G3)].
  - exists ((EvInit wi :: mid) ++ tl), wi, mid, ri, [], tl. refine (conj F (conj eq_refl (conj G1 (conj G2 (conj (or_introl eq_refl) _))))).
    destruct T as [(Q1 & -> & ->)|[(X & _)|(e0 & we & -> & T)]]; [left; auto 6|congruence|]. right. right. exists e0, we. split; [left; reflexivity|].
    subst u. exact T.
  - exists ((EvInit wi :: mid ++ [EvDone wd]) ++ tl), wi, mid, (Ok tt), [EvDone wd], tl.
    refine (conj F (conj _ (conj G1 (conj G2 (conj _ _))))); [cbn; rewrite <- app_assoc; reflexivity|right; eauto|].
    destruct T as [(-> & -> & ->)|[(-> & wf & -> & T)|(e0 & we & -> & T)]].
    + destruct G3 as [[_ X]|[(e & _ & X)|(_ & _ & X)]]; discriminate.
    + destruct G3 as [[D _]|[(e & _ & X)|(_ & _ & X)]]; try discriminate. right. left. exists wd, wf. subst u. auto.
    + right. right. exists e0, we. split; [|subst u; exact T]. right. exists wd. split; [reflexivity|].
      destruct G3 as [[D X]|[(e & D & X)|(D1 & D2 & X)]]; [discriminate| |]; inversion X; subst; auto.
Qed.

(** ** Requirements on elements *)
Lemma new_item_reqs f m each reqs d v acc s r s' : new_item f m each reqs d v acc s = (r, s') ->
  exists t, str s' = str s ++ t /\ forall v' w, In (EvItem v' w) t -> Forall (fun q => q w v' = Val true) reqs.
Proof.
  set (P := fun (s s' : st) => exists t, str s' = str s ++ t /\ forall v' w, In (EvItem v' w) t -> Forall (fun q => q w v' = Val true) reqs).
  assert (P0 : forall s s', str s' = str s -> P s s') by (intros a b E; exists []; rewrite app_nil_r; split; [exact E|intros ? ? []]).
  assert (K : forall A b s r s' (k : bool -> M A), (forall x, quiet (k x)) ->
     (requires reqs v;; (do s0 <- run_each f each v b; k s0)) s = (r, s') -> P s s').
  { intros A b s0 r0 s0' k Hk H. apply bind_inv in H as [([] & s1 & E1 & H)|[(e & E1 & ->)|[E1 ->]]];
      pose proof (pure_requires _ _ _ _ _ E1) as X; subst; [|apply P0; reflexivity..].
    apply requires_ok in E1.
    assert (RE : forall r1 s1, run_each f each v b s0 = (r1, s1) -> P s0 s1).
    { intros r1 s1 HR. apply run_each_cases in HR as [(-> & _)|(h & _ & _ & -> & _)]; cbn [str].
      - exists [EvItem v (sw s0)]. split; [reflexivity|]. intros v' w [X|[]]. inversion X; subst. exact E1.
      - exists [EvItem v (sw s0); EvEach f v (sw s0)]. split; [reflexivity|]. intros v' w [X|[X|[]]]; [|discriminate]. inversion X; subst. exact E1. }
    apply bind_inv in H as [(x & s1 & E2 & H)|[(e & E2 & ->)|[E2 ->]]]; pose proof (RE _ _ E2) as X; auto.
    apply Hk in H. destruct X as (t & F & G). exists t. rewrite H. auto. }
  assert (Kq : forall x, quiet (do a <- push_elem d v x acc; ret (x, a))) by (intros; apply quiet_bind; [qt|intros; qt]).
  destruct m as [n| |c|c|c]; cbn [new_item]; intros H.
  - eapply K; [|exact H]. exact Kq.
  - eapply K; [|exact H]. exact Kq.
  - apply bind_inv in H as [(b & s1 & E1 & H)|[(e & E1 & ->)|[E1 ->]]]; apply pure_eval in E1; subst; [|apply P0; reflexivity..].
    eapply K; [|exact H]. exact Kq.
  - eapply K; [|exact H]. intros x. apply quiet_bind; [qt|]. intros a. destruct x; [qt|]. apply quiet_bind; [qt|]. intros. qt.
  - apply bind_inv in H as [(b & s1 & E1 & H)|[(e & E1 & ->)|[E1 ->]]]; apply pure_eval in E1; subst; [|apply P0; reflexivity..].
    eapply K; [|exact H]. exact Kq.
Qed.
Theorem list_reqs fuel m t0 conv reqs each f d s r s' :
  p_type fuel (TList m (Elem t0 conv reqs) each) f d s = (r, s') -> r <> Div ->
  exists t, str s' = str s ++ [EvList t] /\ forall v w, In (EvItem v w) t -> Forall (fun q => q w v = Val true) reqs.
Proof.
  intros H Hr. cbn [p_type] in H. set (P := fun t => forall v w, In (EvItem v w) t -> Forall (fun q => q w v = Val true) reqs).
  assert (P0 : P []) by (intros ? ? []). assert (PA : forall a b, P a -> P b -> P (a ++ b)).
  { intros a b A B v w HI. apply in_app_or in HI as [HI|HI]; eauto. }
  assert (HB : forall acc, evs P (p_elem fuel (Elem t0 conv reqs) f m each d acc)).
  { intros acc. cbn [p_elem]. apply evs_b; [exact PA| |].
    - eapply em_weaken; [apply type_events|]. intros _ t [-> |[[x ->]|[x ->]]] v w HI; cbn in HI; intuition discriminate.
    - intros raw. apply evs_b; [exact PA|apply evs_q; [exact P0|qt]|]. intros v s0 r0 s0' HN. apply new_item_reqs in HN as (t & F & G). exists t. auto. }
  apply bind_inv in H as [([] & s1 & E1 & H)|[(e & E1 & ->)|[E1 ->]]].
  2: { exfalso. destruct d; cbv in E1; discriminate. }
  2: congruence.
  apply quiet_stored in E1. unfold wrap in H.
  match type of H with (match ?m ?st with _ => _ end) = _ => destruct (m st) as [r2 s2] eqn:E2; assert (X : evs P m) end.
  { apply evs_b; [exact PA| |].
    - destruct m; try (apply evs_foreach; [exact P0|exact PA|exact HB]). apply evs_b; [exact PA|apply evs_q; [exact P0|qt]|].
      intros k. apply evs_counter; [exact P0|exact PA|exact HB].
    - intros l. apply evs_q; [exact P0|]. destruct d; [|qt]. apply quiet_bind; [qt|]. intros w. destruct (get _ _); qt. }
  destruct (X _ _ _ E2) as (t & F & G). inversion H; subst. cbn [str] in *. exists t. rewrite F, E1. auto.
Qed.
