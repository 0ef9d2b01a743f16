(** Removing unused parameters: the two programs run in step. *)
From Coq Require Import ZArith List Bool Arith Lia.
From Verif Require Import PrmModel PrmSpec PrmProofs1.
Import ListNotations.

Section Removal.
  Variable P : pprog.

  Definition rmd (f p : nat) : Prop :=
    exists fd j k, plook f P = Some fd /\ nth_error (fn_params fd) j = Some (p, k) /\ In j (un P f).

  Definition dead (l : ploc) : Prop := match l with LP _ f p => rmd f p | _ => False end.

  Definition rag (s1 s2 : pst) : Prop :=
    p_out s1 = p_out s2 /\ forall l, ~ dead l -> p_sto s1 l = p_sto s2 l.

  Definition rrenv (r1 r2 : penv) : Prop :=
    e_d r1 = e_d r2 /\ e_f r1 = e_f r2 /\
    forall p, ~ rmd (e_f r1) p -> e_pen r1 p = e_pen r2 p /\ ~ dead (e_pen r1 p).

  Inductive rrel {A B} (R : A -> B -> Prop) : pres A -> pres B -> Prop :=
  | RR_ok s1 s2 a b : rag s1 s2 -> R a b -> rrel R (POk s1 a) (POk s2 b)
  | RR_thr s1 s2 : rag s1 s2 -> rrel R (PThrow s1) (PThrow s2)
  | RR_bad : rrel R PBad PBad
  | RR_stop : rrel R PStop PStop.

  Inductive rsrel : psres -> psres -> Prop :=
  | RS_norm s1 s2 : rag s1 s2 -> rsrel (SNorm s1) (SNorm s2)
  | RS_ret s1 s2 z : rag s1 s2 -> rsrel (SRet s1 z) (SRet s2 z)
  | RS_thr s1 s2 : rag s1 s2 -> rsrel (SThr s1) (SThr s2)
  | RS_bad : rsrel SBad SBad
  | RS_stop : rsrel SStop SStop.

  Definition live_b (b : pbind) : Prop := match b with BVal _ => True | BRef l => ~ dead l end.

  Definition cok (c : bool * nat * list pexpr) : Prop :=
    match c with
    | (_, g, args) =>
        (exists gd, plook g P = Some gd /\ length args = length (fn_params gd)) /\
        (forall i a, In i (un P g) -> nth_error args i = Some a -> quiet a)
    end.

  Definition eok (f : nat) (e : pexpr) : Prop :=
    (forall p, In p (eparams e) -> ~ rmd f p) /\ (forall c, In c (ecalls e) -> cok c).

  Definition sok (f : nat) (c : pstmt) : Prop :=
    (forall p, In p (sparams c) -> ~ rmd f p) /\ (forall q, In q (scalls c) -> cok q).

  Definition rmfn (f : nat) (fd : pfn) : pfn :=
    PFn (drop_pos 0 (un P f) (fn_params fd)) (rwsp P (fn_body fd)) (fn_fixed fd) (fn_overloads fd).

  Definition P2 : pprog := map (fun q => match q with (f, fd) => (f, rmfn f fd) end) P.

  Lemma plook_P2 f : plook f P2 = match plook f P with Some fd => Some (rmfn f fd) | None => None end.
  Proof. exact (plook_map f rmfn P). Qed.

  Section Step.
    Variables c1 c2 : nat -> nat -> pfn -> list pbind -> pst -> pres Z.
    Hypothesis Hc : forall d g gd bs s1 s2,
      plook g P = Some gd -> length bs = length (fn_params gd) -> Forall live_b bs -> rag s1 s2 ->
      rrel eq (c1 d g gd bs s1) (c2 d g (rmfn g gd) (drop_pos 0 (un P g) bs) s2).
    Variables r1 r2 : penv.
    Hypothesis Hr : rrenv r1 r2.

    Lemma vloc_rel v : (forall p, In p (var_param v) -> ~ rmd (e_f r1) p) ->
      vloc r1 v = vloc r2 v /\ ~ dead (vloc r1 v).
    Proof.
      destruct Hr as (E1 & E2 & E3). intros H. destruct v as [g|x|p]; cbn [vloc].
      - split; [reflexivity|intros []].
      - split; [congruence|intros []].
      - apply E3, H. now left.
    Qed.

    Lemma quiet_eval P' c' r e : quiet e -> forall s, exists z, peval P' c' r e s = POk s z.
    Proof.
      induction e as [z|v|a b IHa IHb|a b IHa IHb|m f args IH] using pexpr_ind'; cbn [quiet]; intros H s.
      - now exists z.
      - eexists; reflexivity.
      - destruct H as [Ha Hb]. destruct (IHa Ha s) as [x Ex]. destruct (IHb Hb s) as [y Ey].
        cbn [peval]. rewrite Ex, Ey. eexists; reflexivity.
      - destruct H.
      - destruct H.
    Qed.

    Lemma by_value_rwp k a : by_value k (rwp P a) = by_value k a.
    Proof. now destruct k, a. Qed.

    Lemma eok_arg m f args a : eok (e_f r1) (ECall m f args) -> In a args -> eok (e_f r1) a.
    Proof.
      intros [H1 H2] Ha. split.
      - intros p Hp. apply H1. cbn [eparams]. apply in_flat_map. eauto.
      - intros c Hcc. apply H2. cbn [ecalls]. right. apply in_flat_map. eauto.
    Qed.

    Definition erel (e : pexpr) : Prop :=
      eok (e_f r1) e -> forall s1 s2, rag s1 s2 -> rrel eq (peval P c1 r1 e s1) (peval P2 c2 r2 (rwp P e) s2).

    Lemma bind_rel k a s1 s2 : erel a -> eok (e_f r1) a -> rag s1 s2 ->
      rrel (fun b1 b2 => b1 = b2 /\ live_b b1) (pbind1 P c1 r1 k a s1) (pbind1 P2 c2 r2 k (rwp P a) s2).
    Proof.
      intros IH Ok Hs. unfold pbind1. rewrite by_value_rwp. destruct (by_value k a) eqn:B.
      - destruct (IH Ok s1 s2 Hs) as [t1 t2 x y Ht ->|t1 t2 Ht| |]; constructor; auto. split; [reflexivity|exact Logic.I].
      - destruct a as [z|v|? ?|? ?|? ? ?]; try (destruct k; discriminate B). cbn [rwp].
        destruct (vloc_rel v) as [E D]; [exact (proj1 Ok)|]. rewrite <- E. constructor; [assumption|].
        now split.
    Qed.

    Lemma quiet_bind k a s : eok (e_f r1) a -> quiet a -> exists b, pbind1 P c1 r1 k a s = POk s b /\ live_b b.
    Proof.
      intros Ok Q. unfold pbind1. destruct (by_value k a) eqn:B.
      - destruct (quiet_eval P c1 r1 a Q s) as [z E]. rewrite E. eexists; split; [reflexivity|exact Logic.I].
      - destruct a as [z|v|? ?|? ?|? ? ?]; try (destruct k; discriminate B).
        destruct (vloc_rel v) as [E D]; [exact (proj1 Ok)|]. eexists; split; [reflexivity|exact D].
    Qed.

    Lemma args_rel (us : list nat) args : Forall erel args -> (forall a, In a args -> eok (e_f r1) a) ->
      forall i ps s1 s2, length args = length ps -> rag s1 s2 ->
      (forall j a, In (i + j) us -> nth_error args j = Some a -> quiet a) ->
      rrel (fun bs1 bs2 => length bs1 = length ps /\ bs2 = drop_pos i us bs1 /\ Forall live_b bs1)
           (pargs P c1 r1 ps args s1)
           (pargs P2 c2 r2 (drop_pos i us ps) (drop_pos i us (map (rwp P) args)) s2).
    Proof.
      induction args as [|a args IHl]; intros HF Ok i [|[p k] ps] s1 s2 L Hs Q; cbn in L; try discriminate.
      - cbn [drop_pos map]. rewrite !pargs_nil. constructor; [assumption|]. now repeat split.
      - inversion HF as [|? ? Ha Hl]; subst. rewrite pargs_cons. cbn [drop_pos map].
        assert (Oka : eok (e_f r1) a) by (apply Ok; now left).
        assert (IH : forall t1 t2, rag t1 t2 ->
          rrel (fun bs1 bs2 => length bs1 = length ps /\ bs2 = drop_pos (S i) us bs1 /\ Forall live_b bs1)
               (pargs P c1 r1 ps args t1)
               (pargs P2 c2 r2 (drop_pos (S i) us ps) (drop_pos (S i) us (map (rwp P) args)) t2)).
        { intros t1 t2 Ht. apply IHl; auto.
          - intros x Hx. apply Ok. now right.
          - intros j x Hj Hx. apply (Q (S j) x); [|exact Hx]. now replace (i + S j) with (S i + j) by lia. }
        destruct (memb i us) eqn:M.
        + destruct (quiet_bind k a s1 Oka) as (b & Eb & Lb).
          { apply (Q 0 a); [|reflexivity]. rewrite Nat.add_0_r. now apply memb_spec. }
          rewrite Eb. destruct (IH s1 s2 Hs) as [t1 t2 x y Ht (Lx & -> & Fx)|t1 t2 Ht| |]; constructor; auto.
          split; [cbn; congruence|]. split; [|now constructor]. cbn [drop_pos]. now rewrite M.
        + rewrite pargs_cons. destruct (bind_rel k a s1 s2 Ha Oka Hs) as [t1 t2 b1 b2 Ht [<- Lb]|t1 t2 Ht| |];
            [|constructor; assumption|constructor|constructor].
          destruct (IH t1 t2 Ht) as [u1 u2 x y Hu (Lx & -> & Fx)|u1 u2 Hu| |]; constructor; auto.
          split; [cbn; congruence|]. split; [|now constructor]. cbn [drop_pos]. now rewrite M.
    Qed.

    Lemma eval_rel e : erel e.
    Proof.
      induction e as [z|v|a b IHa IHb|a b IHa IHb|m f args IH] using pexpr_ind'; intros Ok s1 s2 Hs.
      - cbn. now constructor.
      - cbn [peval rwp]. destruct (vloc_rel v) as [E D]; [exact (proj1 Ok)|]. rewrite <- E.
        constructor; [assumption|]. now apply (proj2 Hs).
      - assert (Oa : eok (e_f r1) a).
        { split; intros; apply Ok; cbn [eparams ecalls]; apply in_or_app; tauto. }
        assert (Ob : eok (e_f r1) b).
        { split; intros; apply Ok; cbn [eparams ecalls]; apply in_or_app; tauto. }
        cbn [peval rwp]. destruct (IHa Oa s1 s2 Hs) as [t1 t2 x y Ht <-|t1 t2 Ht| |]; try (constructor; assumption).
        destruct (IHb Ob t1 t2 Ht) as [u1 u2 x' y' Hu <-|u1 u2 Hu| |]; constructor; auto.
      - assert (Oa : eok (e_f r1) a).
        { split; intros; apply Ok; cbn [eparams ecalls]; apply in_or_app; tauto. }
        assert (Ob : eok (e_f r1) b).
        { split; intros; apply Ok; cbn [eparams ecalls]; apply in_or_app; tauto. }
        cbn [peval rwp]. destruct (IHa Oa s1 s2 Hs) as [t1 t2 x y Ht <-|t1 t2 Ht| |]; try (constructor; assumption).
        destruct (IHb Ob t1 t2 Ht) as [u1 u2 x' y' Hu <-|u1 u2 Hu| |]; try (constructor; assumption).
        destruct (Z.eqb x' 0); constructor; auto.
      - cbn [rwp]. rewrite !peval_call, plook_P2.
        destruct (proj2 Ok (m, f, args) (or_introl eq_refl)) as [(gd & Eg & Lg) Q]. rewrite Eg.
        change (fn_params (rmfn f gd)) with (drop_pos 0 (un P f) (fn_params gd)).
        destruct (args_rel (un P f) args IH (fun a Ha => eok_arg m f args a Ok Ha) 0 (fn_params gd) s1 s2 Lg Hs)
          as [t1 t2 x y Ht (Lx & -> & Fx)|t1 t2 Ht| |]; try (constructor; assumption).
        + intros j a Hj Ha. exact (Q j a Hj Ha).
        + destruct Hr as (Ed & _). rewrite <- Ed. now apply Hc.
    Qed.

    Lemma rag_upd s1 s2 l z : rag s1 s2 -> rag (pupd s1 l z) (pupd s2 l z).
    Proof.
      intros [H1 H2]. split; [exact H1|]. intros l' Hl. cbn. destruct (ploc_eq_dec l' l); auto.
    Qed.

    Lemma exec_rel k c : sok (e_f r1) c -> forall s1 s2, rag s1 s2 ->
      rsrel (pexec P c1 k r1 c s1) (pexec P2 c2 k r2 (rwsp P c) s2).
    Proof.
      induction c as [|v e|e|e|a IHa b IHb|e a IHa b IHb|e b IHb|e]; intros Ok s1 s2 Hs; cbn [rwsp].
      - now constructor.
      - cbn [pexec]. assert (Oe : eok (e_f r1) e).
        { split; [|exact (proj2 Ok)]. intros p Hp. apply Ok. cbn [sparams]. apply in_or_app. tauto. }
        destruct (vloc_rel v) as [E D]; [intros p Hp; apply Ok; cbn [sparams]; apply in_or_app; tauto|].
        rewrite <- E.
        destruct (eval_rel e Oe s1 s2 Hs) as [t1 t2 x y Ht <-|t1 t2 Ht| |]; try (constructor; assumption).
        constructor. now apply rag_upd.
      - cbn [pexec]. destruct (eval_rel e Ok s1 s2 Hs) as [t1 t2 x y Ht <-|t1 t2 Ht| |]; constructor; assumption.
      - cbn [pexec]. destruct (eval_rel e Ok s1 s2 Hs) as [t1 t2 x y Ht <-|t1 t2 Ht| |]; constructor; try assumption.
        destruct Ht as [K1 K2]. split; [cbn; congruence|exact K2].
      - cbn [pexec]. assert (Oa : sok (e_f r1) a).
        { split; intros; apply Ok; cbn [sparams scalls]; apply in_or_app; tauto. }
        assert (Ob : sok (e_f r1) b).
        { split; intros; apply Ok; cbn [sparams scalls]; apply in_or_app; tauto. }
        destruct (IHa Oa s1 s2 Hs) as [t1 t2 Ht|t1 t2 z Ht|t1 t2 Ht| |]; try (constructor; assumption).
        now apply IHb.
      - cbn [pexec]. assert (Oe : eok (e_f r1) e).
        { split; intros; apply Ok; cbn [sparams scalls]; rewrite !in_app_iff; tauto. }
        assert (Oa : sok (e_f r1) a).
        { split; intros; apply Ok; cbn [sparams scalls]; rewrite !in_app_iff; tauto. }
        assert (Ob : sok (e_f r1) b).
        { split; intros; apply Ok; cbn [sparams scalls]; rewrite !in_app_iff; tauto. }
        destruct (eval_rel e Oe s1 s2 Hs) as [t1 t2 x y Ht <-|t1 t2 Ht| |]; try (constructor; assumption).
        destruct (Z.eqb x 0); auto.
      - assert (Oe : eok (e_f r1) e).
        { split; intros; apply Ok; cbn [sparams scalls]; rewrite !in_app_iff; tauto. }
        assert (Ob : sok (e_f r1) b).
        { split; intros; apply Ok; cbn [sparams scalls]; rewrite !in_app_iff; tauto. }
        rewrite !pexec_while.
        assert (G : forall n s1 s2, rag s1 s2 ->
                  rsrel (ploop P c1 k r1 e b n s1) (ploop P2 c2 k r2 (rwp P e) (rwsp P b) n s2)); [|now apply G].
        clear s1 s2 Hs. induction n as [|n IHn]; intros s1 s2 Hs; [constructor|]. rewrite !ploop_S.
        destruct (eval_rel e Oe s1 s2 Hs) as [t1 t2 x y Ht <-|t1 t2 Ht| |]; try (constructor; assumption).
        destruct (Z.eqb x 0); [constructor; assumption|].
        destruct (IHb Ob t1 t2 Ht) as [u1 u2 Hu|u1 u2 z Hu|u1 u2 Hu| |]; try (constructor; assumption).
        now apply IHn.
      - cbn [pexec]. destruct (eval_rel e Ok s1 s2 Hs) as [t1 t2 x y Ht <-|t1 t2 Ht| |]; constructor; assumption.
    Qed.
  End Step.

  (** Entering the callee: what it names is bound alike. *)
  Lemma plook_bind g gd (bs : list pbind) p : plook g P = Some gd -> length bs = length (fn_params gd) -> ~ rmd g p ->
    plook p (combine (map fst (fn_params gd)) bs) =
    plook p (combine (map fst (drop_pos 0 (un P g) (fn_params gd))) (drop_pos 0 (un P g) bs)).
  Proof.
    intros Eg L Hp. rewrite <- drop_pos_map, <- drop_pos_combine by (rewrite map_length; congruence).
    symmetry. apply plook_drop. intros j x Hj Hin. apply Hp.
    assert (E : nth_error (map fst (fn_params gd)) j = Some p).
    { clear -Hj. revert bs j Hj. induction (map fst (fn_params gd)) as [|q l IH]; intros [|b bs] [|j] Hj; cbn in *; try discriminate.
      - congruence.
      - eauto. }
    rewrite nth_error_map in E. destruct (nth_error (fn_params gd) j) as [[q k]|] eqn:N; [|discriminate].
    cbn in E. injection E as ->. exists gd, j, k. auto.
  Qed.

  Lemma enter_env d g gd (bs : list pbind) : plook g P = Some gd -> length bs = length (fn_params gd) -> Forall live_b bs ->
    rrenv (penter d g gd bs) (penter d g (rmfn g gd) (drop_pos 0 (un P g) bs)).
  Proof.
    intros Eg L F. refine (conj eq_refl (conj eq_refl _)). intros p Hp. cbn [penter e_pen e_f] in *. unfold pen_of.
    cbn [rmfn fn_params]. rewrite <- plook_bind by assumption. split; [reflexivity|].
    destruct (plook p (combine (map fst (fn_params gd)) bs)) as [[z|l]|] eqn:E; [exact Hp| |exact Hp].
    apply plook_In in E. apply in_combine_r in E. rewrite Forall_forall in F. exact (F _ E).
  Qed.

  Lemma enter_st d g gd bs s1 s2 : plook g P = Some gd -> length bs = length (fn_params gd) -> rag s1 s2 ->
    rag (penter_st d g gd bs s1) (penter_st d g (rmfn g gd) (drop_pos 0 (un P g) bs) s2).
  Proof.
    intros Eg L [H1 H2]. split; [exact H1|]. intros l Hl. cbn [penter_st p_sto]. unfold sto_of. specialize (H2 l Hl).
    destruct l as [x|d' f' x|d' f' p]; [exact H2|now destruct (Nat.eqb d' d && Nat.eqb f' g)|].
    destruct (Nat.eqb d' d && Nat.eqb f' g) eqn:K; [|exact H2].
    apply andb_true_iff in K. destruct K as [_ K]. apply Nat.eqb_eq in K. subst f'.
    cbn [rmfn fn_params]. rewrite <- plook_bind by assumption.
    now destruct (plook p (combine (map fst (fn_params gd)) bs)) as [[z|l]|].
  Qed.

  Hypothesis HW : forall f fd, plook f P = Some fd -> sok f (fn_body fd).

  Lemma call_rel n : forall d g gd bs s1 s2,
    plook g P = Some gd -> length bs = length (fn_params gd) -> Forall live_b bs -> rag s1 s2 ->
    rrel eq (pcall P n d g gd bs s1) (pcall P2 n d g (rmfn g gd) (drop_pos 0 (un P g) bs) s2).
  Proof.
    induction n as [|n IH]; intros d g gd bs s1 s2 Eg L F Hs; cbn [pcall]; [constructor|].
    change (fn_body (rmfn g gd)) with (rwsp P (fn_body gd)).
    destruct (exec_rel (pcall P n) (pcall P2 n) IH (penter (S d) g gd bs)
                (penter (S d) g (rmfn g gd) (drop_pos 0 (un P g) bs)) (enter_env (S d) g gd bs Eg L F)
                n (fn_body gd) (HW g gd Eg) _ _ (enter_st (S d) g gd bs s1 s2 Eg L Hs))
      as [t1 t2 Ht|t1 t2 z Ht|t1 t2 Ht| |]; constructor; auto.
  Qed.
End Removal.

Lemma named_not_removed P f fd p : plook f P = Some fd -> NoDup (map fst (fn_params fd)) ->
  In p (sparams (fn_body fd)) -> ~ rmd P f p.
Proof.
  intros E ND Hp (fd' & j & k & E' & Hj & Hu). rewrite E in E'. injection E' as <-.
  unfold un in Hu. rewrite E in Hu. apply unused_In in Hu.
  destruct Hu as (_ & _ & _ & p' & k' & Hj' & Hn). congruence.
Qed.

Lemma rag_same P s1 s2 : rag P s1 s2 -> same_world s1 s2.
Proof. intros [H1 H2]. split; [exact H1|]. intros g. apply H2. intros []. Qed.

Lemma remove_eq P : well_formed P -> removal_safe P ->
  forall f, plook f (remove P) = match plook f P with Some fd => Some (rmfn P f fd) | None => None end.
Proof.
  intros W S f. unfold remove. rewrite (plook_map f (remove_fn P) P).
  destruct (plook f P) as [fd|] eqn:E; [|reflexivity]. f_equal. unfold remove_fn, rmfn. f_equal.
  - now apply un_params.
  - apply rws_plain. intros [[m g] args] Hc Hne a m' h args' Ha Hh.
    assert (Hin : In (m, g, args) (pcalls P)).
    { unfold pcalls. apply in_flat_map. exists (f, fd). split; [now apply plook_In|exact Hc]. }
    exact (proj2 (S m g args Hin) Hne a m' h args' Ha Hh).
Qed.

Lemma pexec_ext P Q c1 c2 k r b : (forall f, plook f P = plook f Q) ->
  (forall d f fd bs s, c1 d f fd bs s = c2 d f fd bs s) ->
  (forall s, pexec P c1 k r b s = pexec Q c2 k r b s).
Proof.
  intros H Hc.
  assert (HE : forall e s, peval P c1 r e s = peval Q c2 r e s).
  { intros e. induction e as [z|v|a b' IHa IHb|a b' IHa IHb|m f args IH] using pexpr_ind'; intros s; cbn [peval].
    - reflexivity.
    - reflexivity.
    - rewrite IHa. destruct (peval Q c2 r a s); auto. now rewrite IHb.
    - rewrite IHa. destruct (peval Q c2 r a s); auto. now rewrite IHb.
    - change (peval P c1 r (ECall m f args) s = peval Q c2 r (ECall m f args) s).
      rewrite !peval_call, H. destruct (plook f Q) as [gd|]; [|reflexivity].
      assert (G : forall ps s, pargs P c1 r ps args s = pargs Q c2 r ps args s).
      { induction IH as [|a l Ha Hl IHl]; intros [|[p k'] ps] t; try reflexivity.
        rewrite !pargs_cons. unfold pbind1. rewrite Ha.
        destruct (if by_value k' a then _ else _); auto. now rewrite IHl. }
      rewrite G. destruct (pargs Q c2 r (fn_params gd) args s); auto. }
  induction b as [|v e|e|e|a IHa b IHb|e a IHa b IHb|e b IHb|e]; intros s; cbn [pexec]; rewrite ?HE; auto.
  - rewrite IHa. destruct (pexec Q c2 k r a s); auto.
  - destruct (peval Q c2 r e s); auto. destruct (Z.eqb a0 0); auto.
  - change (pexec P c1 k r (SWhile e b) s = pexec Q c2 k r (SWhile e b) s).
    rewrite !pexec_while.
    assert (G : forall n s, ploop P c1 k r e b n s = ploop Q c2 k r e b n s); [|now apply G]. clear s.
    induction n as [|n IHn]; intros s; [reflexivity|]. rewrite !ploop_S, HE.
    destruct (peval Q c2 r e s) as [s1 z|s1| |]; auto. destruct (Z.eqb z 0); auto.
    rewrite IHb. destruct (pexec Q c2 k r b s1); auto.
Qed.

Lemma pcall_ext P Q n : (forall f, plook f P = plook f Q) ->
  forall d f fd bs s, pcall P n d f fd bs s = pcall Q n d f fd bs s.
Proof.
  intros H. induction n as [|n IH]; intros d f fd bs s; cbn [pcall]; [reflexivity|].
  now rewrite (pexec_ext P Q (pcall P n) (pcall Q n) n (penter (S d) f fd bs) (fn_body fd) H IH).
Qed.

Theorem removal_preserves P : well_formed P -> removal_safe P ->
  same_behaviour P (remove P).
Proof.
  intros W S n main fd globals E Emp. unfold prun.
  assert (HW : forall f fd, plook f P = Some fd -> sok P f (fn_body fd)).
  { clear E Emp fd. intros f fd E. pose proof (plook_In f P fd E) as Hin. destruct (W f fd Hin) as (ND & CF & _). split.
    - intros p Hp. exact (named_not_removed P f fd p E ND Hp).
    - intros [[m g] args] Hc. split.
      + destruct (CF _ Hc) as (gd & Eg & L). exists gd. now split.
      + assert (Hin' : In (m, g, args) (pcalls P)) by (unfold pcalls; apply in_flat_map; exists (f, fd); now split).
        exact (proj1 (S m g args Hin')). }
  rewrite (remove_eq P W S), E. cbn [rmfn fn_params]. rewrite Emp. cbn [drop_pos length Nat.eqb].
  rewrite (pcall_ext (remove P) (P2 P) n); [|intros f; now rewrite (remove_eq P W S), plook_P2].
  set (s0 := PSt _ _).
  pose proof (call_rel P HW n 0 main fd [] s0 s0 E ltac:(now rewrite Emp) (Forall_nil _)
                (conj eq_refl (fun l _ => eq_refl))) as R.
  cbn [drop_pos] in R.
  destruct R as [t1 t2 a b Ht ->|t1 t2 Ht| |]; cbn; try exact Logic.I.
  - split; [reflexivity|now apply rag_same with P].
  - now apply rag_same with P.
Qed.
