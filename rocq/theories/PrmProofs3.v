(** Promoting `copy` and `inout` parameters to `in`: the two programs run in
    step.  In the promoted program a parameter may be a reference to a
    variable of some caller; [A] and [B] record, for the frames that are
    active, the slots the original program uses instead, the locations
    referred to, and the value both hold until the call is over. *)
From Coq Require Import ZArith List Bool Arith Lia.
From Verif Require Import PrmModel PrmSpec PrmProofs1.
Import ListNotations.

Section Promotion.
  Variable P : pprog.

  Definition pcopy (f p : nat) : Prop :=
    exists fd, plook f P = Some fd /\ In (p, KCopy) (fn_params fd) /\ promotable P fd p KCopy = true.

  Definition shadow (l : ploc) : Prop := match l with LP _ f p => pcopy f p | _ => False end.
  Definition deep (d : nat) (l : ploc) : Prop :=
    match l with LG _ => False | LL k _ _ => k <= d | LP k _ _ => k <= d end.
  Definition outer (d : nat) (l : ploc) : Prop :=
    match l with LG _ => True | LL k _ _ => k <= d | LP k _ _ => k <= d end.
  Definition before (d : nat) (l : ploc) : Prop :=
    match l with LG _ => True | LL k _ _ => k < d | LP k _ _ => k < d end.

  Definition fmap := ploc -> Z -> Prop.
  Definition frozen (B : fmap) (l : ploc) : Prop := exists z, B l z.

  Definition stat (A B : fmap) (d : nat) : Prop :=
    (forall a z, A a z -> shadow a /\ deep d a) /\ (forall b z, B b z -> deep d b).

  Definition inv (A B : fmap) (s1 s2 : pst) : Prop :=
    p_out s1 = p_out s2 /\ (forall l, ~ shadow l -> p_sto s1 l = p_sto s2 l) /\
    (forall a z, A a z -> p_sto s1 a = z) /\ (forall b z, B b z -> p_sto s2 b = z).

  Definition pair_rel (A B : fmap) (l1 l2 : ploc) : Prop :=
    (l1 = l2 /\ ~ shadow l1) \/ exists z, A l1 z /\ B l2 z.

  Inductive prel {X Y} (A B : fmap) (R : X -> Y -> Prop) : pres X -> pres Y -> Prop :=
  | PR_ok s1 s2 a b : inv A B s1 s2 -> R a b -> prel A B R (POk s1 a) (POk s2 b)
  | PR_thr s1 s2 : inv A B s1 s2 -> prel A B R (PThrow s1) (PThrow s2)
  | PR_bad : prel A B R PBad PBad
  | PR_stop : prel A B R PStop PStop.

  Inductive psrel (A B : fmap) : psres -> psres -> Prop :=
  | PS_norm s1 s2 : inv A B s1 s2 -> psrel A B (SNorm s1) (SNorm s2)
  | PS_ret s1 s2 z : inv A B s1 s2 -> psrel A B (SRet s1 z) (SRet s2 z)
  | PS_thr s1 s2 : inv A B s1 s2 -> psrel A B (SThr s1) (SThr s2)
  | PS_bad : psrel A B SBad SBad
  | PS_stop : psrel A B SStop SStop.

  Definition sub (B B' : fmap) : Prop := forall l z, B l z -> B' l z.

  Lemma inv_weak A B B' s1 s2 : sub B B' -> inv A B' s1 s2 -> inv A B s1 s2.
  Proof. intros S (H1 & H2 & H3 & H4). refine (conj H1 (conj H2 (conj H3 _))). intros b z Hb. auto. Qed.

  Lemma pair_mono A B B' l1 l2 : sub B B' -> pair_rel A B l1 l2 -> pair_rel A B' l1 l2.
  Proof. intros S [H | (z & Ha & Hb)]; [now left|]. right. exists z. auto. Qed.

  Lemma pair_read A B l1 l2 s1 s2 : inv A B s1 s2 -> pair_rel A B l1 l2 -> p_sto s1 l1 = p_sto s2 l2.
  Proof.
    intros (_ & H2 & H3 & H4) [[<- N] | (z & Ha & Hb)]; [auto|]. rewrite (H3 _ _ Ha). symmetry. auto.
  Qed.

  (** What is handed over for one parameter, before and after. *)
  Definition rb (A B : fmap) (W : ploc -> Prop) (d : nat) (gd : pfn) (q : nat * pkind) (b1 b2 : pbind) : Prop :=
    match q with
    | (p, KCopy) =>
        exists z, b1 = BVal z /\
          (b2 = BVal z \/ (promotable P gd p KCopy = true /\ exists l, b2 = BRef l /\ B l z))
    | (p, k) =>
        (exists z, b1 = BVal z /\ b2 = BVal z) \/
        (exists l1 l2, b1 = BRef l1 /\ b2 = BRef l2 /\ pair_rel A B l1 l2 /\ outer d l1 /\ outer d l2 /\
           (k = KInOut -> l1 = l2 /\ ~ shadow l2 /\ W l2))
    end.

  Inductive rbs (A B : fmap) (W : ploc -> Prop) (d : nat) (gd : pfn) :
    list (nat * pkind) -> list pbind -> list pbind -> Prop :=
  | rbs_nil : rbs A B W d gd [] [] []
  | rbs_cons q b1 b2 ps bs1 bs2 :
      rb A B W d gd q b1 b2 -> rbs A B W d gd ps bs1 bs2 -> rbs A B W d gd (q :: ps) (b1 :: bs1) (b2 :: bs2).

  Lemma rb_mono A B B' W d gd q b1 b2 : sub B B' -> rb A B W d gd q b1 b2 -> rb A B' W d gd q b1 b2.
  Proof.
    intros S. destruct q as [p [| |]]; cbn.
    - intros (z & H1 & [H2 | (H2 & l & H3 & H4)]); exists z; split; auto. right. split; [assumption|]. exists l. auto.
    - intros [H | (l1 & l2 & H1 & H2 & H3 & H4)]; [now left|]. right. exists l1, l2.
      refine (conj H1 (conj H2 (conj (pair_mono _ _ _ _ _ S H3) H4))).
    - intros [H | (l1 & l2 & H1 & H2 & H3 & H4)]; [now left|]. right. exists l1, l2.
      refine (conj H1 (conj H2 (conj (pair_mono _ _ _ _ _ S H3) H4))).
  Qed.

  Definition pkof (gd : pfn) (q : nat * pkind) : nat * pkind :=
    match q with (p, k) => (p, if promotable P gd p k then KIn else k) end.

  Lemma promote_params gd : fn_params (promote_fn P gd) = map (pkof gd) (fn_params gd).
  Proof. reflexivity. Qed.

  Definition Q2 : pprog := promote P.

  Lemma plook_Q2 f : plook f Q2 = match plook f P with Some fd => Some (promote_fn P fd) | None => None end.
  Proof. exact (plook_map f (fun _ fd => promote_fn P fd) P). Qed.

  Section Step.
    Variables c1 c2 : nat -> nat -> pfn -> list pbind -> pst -> pres Z.
    Hypothesis Hc : forall A B W d g gd bs1 bs2 s1 s2,
      plook g P = Some gd -> rbs A B W d gd (fn_params gd) bs1 bs2 -> (forall l, W l -> ~ frozen B l) ->
      stat A B d -> inv A B s1 s2 ->
      prel A B eq (c1 d g gd bs1 s1) (c2 d g (promote_fn P gd) bs2 s2).
    Variable fd : pfn.
    Hypothesis Hnd : NoDup (map fst (fn_params fd)).
    Variables r1 r2 : penv.
    Hypothesis Hf : plook (e_f r1) P = Some fd.
    Hypothesis Hd : e_d r1 = e_d r2.
    Hypothesis Hef : e_f r1 = e_f r2.
    Variable A : fmap.

    Definition envrel (B : fmap) : Prop :=
      (forall p, pair_rel A B (e_pen r1 p) (e_pen r2 p) /\ outer (e_d r1) (e_pen r1 p) /\ outer (e_d r1) (e_pen r2 p)) /\
      (forall p, In (p, KCopy) (fn_params fd) ->
         if promotable P fd p KCopy then frozen B (e_pen r2 p) else e_pen r2 p = LP (e_d r1) (e_f r1) p) /\
      (forall p, In (p, KInOut) (fn_params fd) ->
         e_pen r2 p = LP (e_d r1) (e_f r1) p \/ before (e_d r1) (e_pen r2 p)).

    Lemma envrel_mono B B' : sub B B' -> envrel B -> envrel B'.
    Proof.
      intros S (H1 & H2 & H3). refine (conj _ (conj _ H3)).
      - intros p. destruct (H1 p) as (K & K'). split; [now apply pair_mono with B|exact K'].
      - intros p Hp. specialize (H2 p Hp). destruct (promotable P fd p KCopy); [|exact H2].
        destruct H2 as [z Hz]. exists z. auto.
    Qed.

    Definition wok (B : fmap) (v : pvar) : Prop :=
      vloc r1 v = vloc r2 v /\ ~ shadow (vloc r2 v) /\ ~ frozen B (vloc r2 v).

    (** A variable that may be written is none that is promoted or `in`. *)
    Definition wshape (v : pvar) : Prop :=
      match v with
      | VP p => In (p, KInOut) (fn_params fd) \/ (In (p, KCopy) (fn_params fd) /\ promotable P fd p KCopy = false)
      | _ => True
      end.

    Lemma vloc_pair B v : envrel B -> pair_rel A B (vloc r1 v) (vloc r2 v) /\
      outer (e_d r1) (vloc r1 v) /\ outer (e_d r1) (vloc r2 v).
    Proof.
      intros (H1 & _ & _). destruct v as [g|x|p]; cbn [vloc].
      - split; [left; split; [reflexivity|intros []]|]. split; exact Logic.I.
      - rewrite <- Hd, <- Hef. split; [left; split; [reflexivity|intros []]|]. cbn. split; lia.
      - apply H1.
    Qed.

    Lemma own_distinct B u w : envrel B -> own_var fd u -> wshape w -> u <> w -> ~ frozen B (vloc r2 w) ->
      vloc r2 w <> vloc r2 u.
    Proof.
      intros (H1 & H2 & H3) Ho Hw Hne Hfr E.
      destruct u as [g|x|q]; cbn [own_var] in Ho; [destruct Ho| |].
      - destruct w as [g|y|p]; cbn [vloc] in E; [discriminate|congruence|].
        rewrite <- Hd, <- Hef in E. destruct Hw as [Hw | [Hw Np]].
        + destruct (H3 p Hw) as [K | K]; rewrite E in K; [discriminate|cbn in K; lia].
        + specialize (H2 p Hw). rewrite Np in H2. congruence.
      - specialize (H2 q Ho) as Hq. cbn [vloc] in E. destruct (promotable P fd q KCopy) eqn:Pq.
        + rewrite E in Hfr. cbn [vloc] in Hfr. contradiction.
        + rewrite Hq in E. destruct w as [g|y|p]; cbn [vloc] in E; [discriminate|discriminate|].
          assert (p <> q) by congruence. destruct Hw as [Hw | [Hw Np]].
          * destruct (H3 p Hw) as [K | K]; rewrite E in K; [injection K; congruence|cbn in K; lia].
          * specialize (H2 p Hw). rewrite Np, E in H2. injection H2. congruence.
    Qed.

    Definition csafe (c : bool * nat * list pexpr) : Prop :=
      match c with
      | (m, g, args) =>
          exists gd, plook g P = Some gd /\ length args = length (fn_params gd) /\
            forall i p u, nth_error (fn_params gd) i = Some (p, KCopy) -> promotable P gd p KCopy = true ->
              nth_error args i = Some (EVar u) -> own_var fd u /\ ~ In u (ewr P (ECall m g args))
      end.

    Definition eok3 (e : pexpr) : Prop :=
      (forall c, In c (ecalls e) -> csafe c) /\ (forall v, In v (ewr P e) -> wshape v).

    Definition erel3 (e : pexpr) : Prop := eok3 e -> forall B, envrel B -> stat A B (e_d r1) ->
      (forall v, In v (ewr P e) -> wok B v) -> forall s1 s2, inv A B s1 s2 ->
      prel A B eq (peval P c1 r1 e s1) (peval Q2 c2 r2 e s2).

    Inductive arel (B : fmap) (W : list pvar) (gd : pfn) (ps : list (nat * pkind)) :
      pres (list pbind) -> pres (list pbind) -> Prop :=
    | AR_ok B' s1 s2 bs1 bs2 : sub B B' -> stat A B' (e_d r1) -> inv A B' s1 s2 ->
        (forall w, In w W -> wok B' w) ->
        rbs A B' (fun l => exists w, In w W /\ l = vloc r2 w) (e_d r1) gd ps bs1 bs2 ->
        arel B W gd ps (POk s1 bs1) (POk s2 bs2)
    | AR_thr s1 s2 : inv A B s1 s2 -> arel B W gd ps (PThrow s1) (PThrow s2)
    | AR_bad : arel B W gd ps PBad PBad
    | AR_stop : arel B W gd ps PStop PStop.

    Lemma arel_weak B B' W gd ps x y : sub B B' -> arel B' W gd ps x y -> arel B W gd ps x y.
    Proof.
      intros S [B2 s1 s2 bs1 bs2 H1 H2 H3 H4 H5|s1 s2 H| |]; try constructor.
      - apply AR_ok with B2; auto. intros l z Hl. auto.
      - now apply inv_weak with B'.
    Qed.

    Lemma args_rel3 (W : list pvar) (gd : pfn) args :
      (forall w, In w W -> wshape w) -> Forall erel3 args -> (forall a, In a args -> eok3 a) ->
      (forall a v, In a args -> In v (ewr P a) -> In v W) ->
      forall ps, length args = length ps ->
      (forall v, In v (inout_direct ps args) -> In v W) ->
      (forall i p u, nth_error ps i = Some (p, KCopy) -> promotable P gd p KCopy = true ->
         nth_error args i = Some (EVar u) -> own_var fd u /\ ~ In u W) ->
      forall B s1 s2, envrel B -> stat A B (e_d r1) -> (forall w, In w W -> wok B w) -> inv A B s1 s2 ->
      arel B W gd ps (pargs P c1 r1 ps args s1) (pargs Q2 c2 r2 (map (pkof gd) ps) args s2).
    Proof.
      intros HW. induction args as [|a args IHl]; intros HF Ok Hewr [|[p k] ps] L Hio Hs B s1 s2 He Hst Hwk Hi;
        cbn in L; try discriminate.
      - cbn [map]. rewrite !pargs_nil. apply AR_ok with B; auto.
        + intros l z Hl; exact Hl.
        + constructor.
      - inversion HF as [|? ? Ha Hl]; subst. cbn [map pkof]. rewrite !pargs_cons.
        assert (IH : forall B s1 s2, envrel B -> stat A B (e_d r1) -> (forall w, In w W -> wok B w) -> inv A B s1 s2 ->
          arel B W gd ps (pargs P c1 r1 ps args s1) (pargs Q2 c2 r2 (map (pkof gd) ps) args s2)).
        { apply IHl; auto.
          - intros x Hx. apply Ok. now right.
          - intros x v Hx. apply Hewr. now right.
          - intros v Hv. apply Hio. cbn [inout_direct combine flat_map]. apply in_or_app. now right.
          - intros i q u Hi1 Hi2 Hi3. apply (Hs (S i) q u); assumption. }
        clear IHl.
        assert (Ev : prel A B eq (peval P c1 r1 a s1) (peval Q2 c2 r2 a s2)).
        { apply Ha; auto; [apply Ok; now left|]. intros v Hv. apply Hwk. apply (Hewr a v); [now left|exact Hv]. }
        assert (Cont : forall B1 t1 t2 b1 b2, sub B B1 -> envrel B1 -> stat A B1 (e_d r1) ->
          (forall w, In w W -> wok B1 w) -> inv A B1 t1 t2 ->
          rb A B1 (fun l => exists w, In w W /\ l = vloc r2 w) (e_d r1) gd (p, k) b1 b2 ->
          arel B W gd ((p, k) :: ps)
            (match pargs P c1 r1 ps args t1 with POk s3 bs => POk s3 (b1 :: bs) | o => o end)
            (match pargs Q2 c2 r2 (map (pkof gd) ps) args t2 with POk s3 bs => POk s3 (b2 :: bs) | o => o end)).
        { intros B1 t1 t2 b1 b2 S1 He1 Hst1 Hw1 Hi1 Hrb. apply arel_weak with B1; [exact S1|].
          destruct (IH B1 t1 t2 He1 Hst1 Hw1 Hi1) as [B2 u1 u2 bs1 bs2 K1 K2 K3 K4 K5|u1 u2 K| |]; try (constructor; assumption).
          apply AR_ok with B2; auto. constructor; [|exact K5]. now apply rb_mono with B1. }
        (* both by value *)
        assert (Val : forall k2, by_value k a = true -> by_value k2 a = true ->
          arel B W gd ((p, k) :: ps)
            (match pbind1 P c1 r1 k a s1 with
             | POk t b => match pargs P c1 r1 ps args t with POk s3 bs => POk s3 (b :: bs) | o => o end
             | PThrow t => PThrow t | PBad => PBad | PStop => PStop end)
            (match pbind1 Q2 c2 r2 k2 a s2 with
             | POk t b => match pargs Q2 c2 r2 (map (pkof gd) ps) args t with POk s3 bs => POk s3 (b :: bs) | o => o end
             | PThrow t => PThrow t | PBad => PBad | PStop => PStop end)).
        { intros k2 B1 B2. unfold pbind1. rewrite B1, B2.
          destruct Ev as [t1 t2 x y Ht <-|t1 t2 Ht| |]; try (constructor; assumption).
          apply (Cont B t1 t2); auto.
          - intros l z Hz; exact Hz.
          - destruct k; cbn; [exists x; auto|left; exists x; auto|left; exists x; auto]. }
        (* both by reference *)
        assert (Ref : forall k2 u, a = EVar u -> k <> KCopy -> k2 <> KCopy ->
          arel B W gd ((p, k) :: ps)
            (match pbind1 P c1 r1 k a s1 with
             | POk t b => match pargs P c1 r1 ps args t with POk s3 bs => POk s3 (b :: bs) | o => o end
             | PThrow t => PThrow t | PBad => PBad | PStop => PStop end)
            (match pbind1 Q2 c2 r2 k2 a s2 with
             | POk t b => match pargs Q2 c2 r2 (map (pkof gd) ps) args t with POk s3 bs => POk s3 (b :: bs) | o => o end
             | PThrow t => PThrow t | PBad => PBad | PStop => PStop end)).
        { intros k2 u -> K1 K2. unfold pbind1.
          replace (by_value k (EVar u)) with false by (destruct k; [congruence|reflexivity|reflexivity]).
          replace (by_value k2 (EVar u)) with false by (destruct k2; [congruence|reflexivity|reflexivity]).
          destruct (vloc_pair B u He) as (V1 & V2 & V3).
          apply (Cont B s1 s2); auto.
          - intros l z Hz; exact Hz.
          - assert (G : (exists z, BRef (vloc r1 u) = BVal z /\ BRef (vloc r2 u) = BVal z) \/
              (exists l1 l2, BRef (vloc r1 u) = BRef l1 /\ BRef (vloc r2 u) = BRef l2 /\ pair_rel A B l1 l2 /\
                 outer (e_d r1) l1 /\ outer (e_d r1) l2 /\
                 (k = KInOut -> l1 = l2 /\ ~ shadow l2 /\ exists w, In w W /\ l2 = vloc r2 w))).
            { right. exists (vloc r1 u), (vloc r2 u).
              refine (conj eq_refl (conj eq_refl (conj V1 (conj V2 (conj V3 _))))).
              intros ->. assert (HuW : In u W) by (apply Hio; cbn [inout_direct combine flat_map]; now left).
              destruct (Hwk u HuW) as (W1 & W2 & W3). refine (conj W1 (conj W2 _)). exists u. now split. }
            destruct k; [congruence|exact G|exact G]. }
        destruct k.
        + destruct (promotable P gd p KCopy) eqn:Pr.
          * destruct a as [z|u|x y|x y|m' f' args'].
            -- apply Val; reflexivity.
            -- (* the interesting case: a copy becomes a reference *)
               unfold pbind1. cbn [by_value peval].
               destruct (Hs 0 p u eq_refl Pr eq_refl) as [Ho Hn].
               destruct (vloc_pair B u He) as (V1 & V2 & V3).
               pose proof (pair_read _ _ _ _ _ _ Hi V1) as Rd.
               set (z := p_sto s1 (vloc r1 u)) in *.
               set (B1 := fun l z' => B l z' \/ (l = vloc r2 u /\ z' = z)).
               assert (S1 : sub B B1) by (intros l z' Hlz; now left).
               assert (Dp : deep (e_d r1) (vloc r2 u)).
               { destruct u as [g|x|q]; cbn [own_var] in Ho; [destruct Ho| |].
                 - cbn. rewrite Hd. lia.
                 - destruct He as (_ & H2 & _). specialize (H2 q Ho). cbn [vloc]. destruct (promotable P fd q KCopy).
                   + destruct H2 as [z' Hz']. exact (proj2 Hst _ _ Hz').
                   + rewrite H2. cbn. lia. }
               apply (Cont B1 s1 s2); auto.
               ++ now apply envrel_mono with B.
               ++ split; [exact (proj1 Hst)|]. intros b z' [Hb | [-> _]]; [exact (proj2 Hst _ _ Hb)|exact Dp].
               ++ intros w Hw. destruct (Hwk w Hw) as (W1 & W2 & W3). refine (conj W1 (conj W2 _)).
                  intros [z' [Hb | [E _]]]; [apply W3; now exists z'|].
                  revert E. apply (own_distinct B); auto. intros ->. contradiction.
               ++ destruct Hi as (I1 & I2 & I3 & I4). refine (conj I1 (conj I2 (conj I3 _))).
                  intros b z' [Hb | [-> ->]]; [auto|congruence].
               ++ cbn. exists z. split; [reflexivity|]. right. split; [assumption|]. exists (vloc r2 u).
                  split; [reflexivity|]. right. auto.
            -- apply Val; reflexivity.
            -- apply Val; reflexivity.
            -- apply Val; reflexivity.
          * apply Val; now destruct a.
        + cbn [promotable]. destruct a as [z|u|x y|x y|m' f' args']; try (apply Val; reflexivity).
          apply (Ref KIn u); congruence.
        + destruct (promotable P gd p KInOut).
          * destruct a as [z|u|x y|x y|m' f' args']; try (apply Val; reflexivity). apply (Ref KIn u); congruence.
          * destruct a as [z|u|x y|x y|m' f' args']; try (apply Val; reflexivity). apply (Ref KInOut u); congruence.
    Qed.

    Lemma eval_rel3 e : erel3 e.
    Proof.
      induction e as [z|v|a b IHa IHb|a b IHa IHb|m f args IH] using pexpr_ind'; intros Ok B He Hst Hw s1 s2 Hi.
      - cbn. now constructor.
      - cbn [peval]. constructor; [assumption|]. apply (pair_read A B); [assumption|]. exact (proj1 (vloc_pair B v He)).
      - assert (Oa : eok3 a) by (split; intros; apply Ok; cbn [ecalls ewr]; apply in_or_app; tauto).
        assert (Ob : eok3 b) by (split; intros; apply Ok; cbn [ecalls ewr]; apply in_or_app; tauto).
        cbn [ewr] in Hw.
        cbn [peval]. destruct (IHa Oa B He Hst (fun v K => Hw v (in_or_app _ _ _ (or_introl K))) s1 s2 Hi)
          as [t1 t2 x y Ht <-|t1 t2 Ht| |]; try (constructor; assumption).
        destruct (IHb Ob B He Hst (fun v K => Hw v (in_or_app _ _ _ (or_intror K))) t1 t2 Ht)
          as [u1 u2 x' y' Hu <-|u1 u2 Hu| |]; constructor; auto.
      - assert (Oa : eok3 a) by (split; intros; apply Ok; cbn [ecalls ewr]; apply in_or_app; tauto).
        assert (Ob : eok3 b) by (split; intros; apply Ok; cbn [ecalls ewr]; apply in_or_app; tauto).
        cbn [ewr] in Hw.
        cbn [peval]. destruct (IHa Oa B He Hst (fun v K => Hw v (in_or_app _ _ _ (or_introl K))) s1 s2 Hi)
          as [t1 t2 x y Ht <-|t1 t2 Ht| |]; try (constructor; assumption).
        destruct (IHb Ob B He Hst (fun v K => Hw v (in_or_app _ _ _ (or_intror K))) t1 t2 Ht)
          as [u1 u2 x' y' Hu <-|u1 u2 Hu| |]; try (constructor; assumption).
        destruct (Z.eqb x' 0); constructor; auto.
      - rewrite !peval_call, plook_Q2.
        destruct (proj1 Ok (m, f, args) (or_introl eq_refl)) as (gd & Eg & Lg & Sf). rewrite Eg, promote_params.
        assert (AR : arel B (ewr P (ECall m f args)) gd (fn_params gd)
                  (pargs P c1 r1 (fn_params gd) args s1)
                  (pargs Q2 c2 r2 (map (pkof gd) (fn_params gd)) args s2)).
        { apply args_rel3; auto.
          - intros w Hw'. now apply (proj2 Ok).
          - intros a Ha. split.
            + intros c Hcc. apply (proj1 Ok). cbn [ecalls]. right. apply in_flat_map. eauto.
            + intros v Hv. apply (proj2 Ok). cbn [ewr]. apply in_or_app. right. apply in_flat_map. eauto.
          - intros a v Ha Hv. cbn [ewr]. apply in_or_app. right. apply in_flat_map. eauto.
          - intros v Hv. cbn [ewr]. rewrite Eg. apply in_or_app. now left. }
        destruct AR as [B' t1 t2 bs1 bs2 K1 K2 K3 K4 K5|t1 t2 K| |]; try (constructor; assumption).
        rewrite <- Hd.
        assert (R : prel A B' eq (c1 (e_d r1) f gd bs1 t1) (c2 (e_d r1) f (promote_fn P gd) bs2 t2)).
        { eapply Hc; eauto. intros l (w & Hw' & ->). exact (proj2 (proj2 (K4 w Hw'))). }
        destruct R as [u1 u2 x y Hu <-|u1 u2 Hu| |]; constructor; auto; now apply inv_weak with B'.
    Qed.

    Definition sok3 (c : pstmt) : Prop :=
      (forall q, In q (scalls c) -> csafe q) /\ (forall v, In v (swr P c) -> wshape v).

    Lemma inv_upd B s1 s2 l z : stat A B (e_d r1) -> inv A B s1 s2 -> ~ shadow l -> ~ frozen B l ->
      inv A B (pupd s1 l z) (pupd s2 l z).
    Proof.
      intros Hst (I1 & I2 & I3 & I4) Ns Nf. refine (conj I1 (conj _ (conj _ _))); cbn.
      - intros l' Hl. destruct (ploc_eq_dec l' l); auto.
      - intros a z' Ha. destruct (ploc_eq_dec a l) as [-> | _]; [|auto].
        exfalso. apply Ns. exact (proj1 (proj1 Hst _ _ Ha)).
      - intros b z' Hb. destruct (ploc_eq_dec b l) as [-> | _]; [|auto].
        exfalso. apply Nf. now exists z'.
    Qed.

    Lemma exec_rel3 B k c : envrel B -> stat A B (e_d r1) -> sok3 c -> (forall v, In v (swr P c) -> wok B v) ->
      forall s1 s2, inv A B s1 s2 ->
      psrel A B (pexec P c1 k r1 c s1) (pexec Q2 c2 k r2 c s2).
    Proof.
      intros He Hst.
      assert (EV : forall e, eok3 e -> (forall v, In v (ewr P e) -> wok B v) -> forall s1 s2, inv A B s1 s2 ->
        prel A B eq (peval P c1 r1 e s1) (peval Q2 c2 r2 e s2)).
      { intros e Oe We s1 s2 Hs. now apply eval_rel3. }
      induction c as [|v e|e|e|a IHa b IHb|e a IHa b IHb|e b IHb|e]; intros Ok Hw s1 s2 Hs;
        cbn [scalls swr] in *.
      - now constructor.
      - assert (Oe : eok3 e) by (split; [exact (proj1 Ok)|intros v' Hv; apply (proj2 Ok); now right]).
        cbn [pexec]. destruct (EV e Oe (fun v' K => Hw v' (or_intror K)) s1 s2 Hs) as [t1 t2 x y Ht <-|t1 t2 Ht| |];
          try (constructor; assumption).
        destruct (Hw v (or_introl eq_refl)) as (W1 & W2 & W3). rewrite W1. constructor. now apply inv_upd.
      - cbn [pexec]. destruct (EV e Ok Hw s1 s2 Hs) as [t1 t2 x y Ht <-|t1 t2 Ht| |]; constructor; assumption.
      - cbn [pexec]. destruct (EV e Ok Hw s1 s2 Hs) as [t1 t2 x y Ht <-|t1 t2 Ht| |]; constructor; try assumption.
        destruct Ht as (I1 & I2). split; [cbn; congruence|exact I2].
      - assert (Oa : sok3 a) by (split; intros; apply Ok; cbn [scalls swr]; apply in_or_app; tauto).
        assert (Ob : sok3 b) by (split; intros; apply Ok; cbn [scalls swr]; apply in_or_app; tauto).
        cbn [pexec]. destruct (IHa Oa (fun v K => Hw v (in_or_app _ _ _ (or_introl K))) s1 s2 Hs)
          as [t1 t2 Ht|t1 t2 z Ht|t1 t2 Ht| |]; try (constructor; assumption).
        apply IHb; auto. intros v K. apply Hw, in_or_app. now right.
      - assert (Oe : eok3 e) by (split; intros; apply Ok; cbn [scalls swr]; rewrite !in_app_iff; tauto).
        assert (Oa : sok3 a) by (split; intros; apply Ok; cbn [scalls swr]; rewrite !in_app_iff; tauto).
        assert (Ob : sok3 b) by (split; intros; apply Ok; cbn [scalls swr]; rewrite !in_app_iff; tauto).
        assert (We : forall v, In v (ewr P e) -> wok B v) by (intros; apply Hw; rewrite !in_app_iff; tauto).
        assert (Wa : forall v, In v (swr P a) -> wok B v) by (intros; apply Hw; rewrite !in_app_iff; tauto).
        assert (Wb : forall v, In v (swr P b) -> wok B v) by (intros; apply Hw; rewrite !in_app_iff; tauto).
        cbn [pexec]. destruct (EV e Oe We s1 s2 Hs) as [t1 t2 x y Ht <-|t1 t2 Ht| |]; try (constructor; assumption).
        destruct (Z.eqb x 0); auto.
      - assert (Oe : eok3 e) by (split; intros; apply Ok; cbn [scalls swr]; rewrite !in_app_iff; tauto).
        assert (Ob : sok3 b) by (split; intros; apply Ok; cbn [scalls swr]; rewrite !in_app_iff; tauto).
        assert (We : forall v, In v (ewr P e) -> wok B v) by (intros; apply Hw; rewrite !in_app_iff; tauto).
        assert (Wb : forall v, In v (swr P b) -> wok B v) by (intros; apply Hw; rewrite !in_app_iff; tauto).
        rewrite !pexec_while.
        assert (G : forall n s1 s2, inv A B s1 s2 ->
                  psrel A B (ploop P c1 k r1 e b n s1) (ploop Q2 c2 k r2 e b n s2)); [|now apply G].
        clear s1 s2 Hs. induction n as [|n IHn]; intros s1 s2 Hs; [constructor|]. rewrite !ploop_S.
        destruct (EV e Oe We s1 s2 Hs) as [t1 t2 x y Ht <-|t1 t2 Ht| |]; try (constructor; assumption).
        destruct (Z.eqb x 0); [constructor; assumption|].
        destruct (IHb Ob Wb t1 t2 Ht) as [u1 u2 Hu|u1 u2 z Hu|u1 u2 Hu| |]; try (constructor; assumption).
        now apply IHn.
      - cbn [pexec]. destruct (EV e Ok Hw s1 s2 Hs) as [t1 t2 x y Ht <-|t1 t2 Ht| |]; constructor; assumption.
    Qed.
  End Step.
End Promotion.
