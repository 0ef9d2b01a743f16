From Verif Require Import Base IntModel TimeModel FoldModel FoldSpec FoldProofs.
Open Scope Z_scope.

Section P.
Variables (secs_ival secs_time : src -> Z -> res Z).
Variables (env : nat -> value) (op : nat -> value -> value -> res value) (uneg : width -> Z -> res Z).
Variables (G O : nat -> kind) (st : style).
Notation fc := (fold_const secs_ival secs_time).
Notation fe := (fold_expression secs_ival secs_time).
Notation ev := (eval secs_ival secs_time env op uneg).
Notation ty := (typed G O).

Lemma fe_fc e c : fe st e = Ok (Some c) -> fc st e = Ok (Some c).
Proof.
  destruct e; cbn [fold_expression]; auto. destruct (negb (inline_all st) && (negb (inline_bool st) || negb is_bool)); [discriminate|auto].
Qed.
Lemma fe_bad e : bad (fe st e) -> bad (fc st e).
Proof.
  destruct e; cbn [fold_expression]; auto. destruct (negb (inline_all st) && (negb (inline_bool st) || negb is_bool)); [intros []|auto].
Qed.

Lemma fold_typed e k : ty e k -> forall c, fc st e = Ok (Some c) -> kind_of c = k.
Proof.
  induction 1; intros cc F; cbn [fold_const] in F; try discriminate.
  - congruence.
  - destruct s; cbn [fold_const] in F; destruct (fc st e) as [[[]|]| |] eqn:E; try discriminate; destruct signed; try discriminate;
      cbn [bind] in F; pose proof (IHtyped _ eq_refl) as K; cbn in K; injection K; intros; subst.
    + destruct (raw_neg64 z); try discriminate. injection F; intros; subst. reflexivity.
    + destruct (safe_negate z); try discriminate. injection F; intros; subst. reflexivity.
  - apply IHtyped; auto.
  - destruct (fc st a) as [[[]|]| |], (fc st b) as [[[]|]| |]; try discriminate. injection F; intros; subst. reflexivity.
  - destruct (fc st a) as [[[]|]| |], (fc st b) as [[[]|]| |]; try discriminate. injection F; intros; subst. reflexivity.
  - destruct (fc st a) as [[[]|]| |]; try discriminate. injection F; intros; subst. reflexivity.
  - destruct (f && negb (inline_feature st)); [discriminate|]. auto.
  - destruct (negb (fold_ternary st)); [discriminate|]. destruct (fc st c) as [[[]|]| |]; try discriminate.
    cbn [bind] in F. destruct a; try discriminate. destruct b; try discriminate. injection F; intros; subst.
    destruct b0; [inversion H0|inversion H1]; reflexivity.
  - destruct (fc st a) as [[[]|]| |]; try discriminate. injection F; intros; subst. reflexivity.
  - destruct (fc st a) as [[[]|]| |]; try discriminate. injection F; intros; subst. reflexivity.
  - destruct (fc st a) as [[[]|]| |]; try discriminate. injection F; intros; subst. reflexivity.
  - destruct (fc st a) as [[[]|]| |]; try discriminate. cbn [bind] in F. destruct (Bool.eqb signed f); [|discriminate].
    destruct (match f with true => if t then Ok z else to_uint64 z | false => if t then to_int64 z else Ok z end); try discriminate.
    injection F; intros; subst. reflexivity.
  - destruct (fc st a) as [[x|]| |]; try discriminate. cbn [bind] in F. destruct (num_arg (SInt s) x); [|discriminate].
    unfold mk_ival in F. destruct u; [destruct (secs_ival (SInt s) z)|destruct (safe_i64 z)]; try discriminate; injection F; intros; subst; reflexivity.
  - destruct (fc st a) as [[x|]| |]; try discriminate. cbn [bind] in F. destruct (num_arg SReal x); [|discriminate].
    unfold mk_ival in F. destruct u; [destruct (secs_ival SReal z)|destruct (safe_i64 z)]; try discriminate; injection F; intros; subst; reflexivity.
  - destruct (fc st a) as [[x|]| |]; try discriminate. cbn [bind] in F. destruct (num_arg (SInt s) x); [|discriminate].
    unfold mk_time in F. destruct u; [destruct (secs_time (SInt s) z)|destruct (safe_u64 z)]; try discriminate; injection F; intros; subst; reflexivity.
  - destruct (fc st a) as [[x|]| |]; try discriminate. cbn [bind] in F. destruct (num_arg SReal x); [|discriminate].
    unfold mk_time in F. destruct u; [destruct (secs_time SReal z)|destruct (safe_u64 z)]; try discriminate; injection F; intros; subst; reflexivity.
Qed.

Definition refines (e e' : expr) : Prop := forall v, ev e = Ok v -> ev e' = Ok v.

Record good (e : expr) (k : kind) (e' : expr) (m er : bool) : Prop := {
  g_ty : ty e' k;
  g_nu : no_uneg e = true -> no_uneg e' = true;
  g_ref : refines e e';
  g_nodes : if m then (nodes e' < nodes e)%nat else e' = e;
  g_err : er = true -> exists x, sub x e /\ fails (ev x);
  g_sub : forall x', sub x' e' -> exists x, sub x e /\ refines x x' }.

Lemma good_neg e k e' m er : good e k e' m er -> neg_ok uneg e -> neg_ok uneg e'.
Proof. intros g [N|N]; [left|right; exact N]. apply (g_nu _ _ _ _ _ g N). Qed.

Lemma good_refl e k : ty e k -> good e k e false false.
Proof. intros T. constructor; auto; try discriminate. - intros v; auto. - intros x' S. exists x'. split; [exact S|intros v; auto]. Qed.

Lemma good_trans e k e1 m1 er1 e2 m2 er2 :
  good e k e1 m1 er1 -> good e1 k e2 m2 er2 -> good e k e2 (m1 || m2) (er1 || er2).
Proof.
  intros [a1 a2 a3 a4 a5 a6] [b1 b2 b3 b4 b5 b6]. constructor; auto.
  - intros v E. apply b3, a3, E.
  - destruct m1, m2; cbn [orb] in *; subst; auto; lia.
  - intros E. apply orb_true_iff in E. destruct E as [E|E]; [auto|].
    destruct (b5 E) as (x & S & F). destruct (a6 _ S) as (x0 & S0 & R0). exists x0. split; [exact S0|].
    intros v E0. exact (F v (R0 v E0)).
  - intros x' S. destruct (b6 _ S) as (x1 & S1 & R1). destruct (a6 _ S1) as (x0 & S0 & R0).
    exists x0. split; [exact S0|]. intros v E. apply R1, R0, E.
Qed.

Lemma visit_good e k r : ty e k -> neg_ok uneg e -> visit_node secs_ival secs_time st e = Ok r -> good e k (v_expr r) (v_mod r) (v_err r).
Proof.
  intros T N V.
  assert (D : (exists v, e = ECtor v) \/ (nodes e > 0)%nat /\
    match fe st e with
    | Ok (Some v) => r = mkVisit (ECtor v) true false
    | Ok None => r = mkVisit e false false
    | Throw _ => r = mkVisit e false true
    | UB => False
    end).
  { destruct e; try (right; split; [cbn; lia|]); [left; eauto|..]; unfold visit_node in V;
      match goal with |- context [fold_expression _ _ st ?x] => destruct (fe st x) as [[]| |] end; congruence. }
  destruct D as [[v ->]|[P D]].
  - cbn in V. injection V; intros; subst. cbn. apply good_refl; auto.
  - destruct (fe st e) as [[c|]| |] eqn:F; subst; cbn [v_expr v_mod v_err].
    + apply fe_fc in F. pose proof (fold_typed _ _ T _ F) as K. constructor.
      * rewrite <- K. constructor.
      * reflexivity.
      * intros v E. destruct (fold_agrees _ _ _ _ _ _ _ _ _ N F E) as [-> V']. cbn. rewrite V'. reflexivity.
      * cbn. lia.
      * discriminate.
      * intros x' S. exists e. split; [constructor|]. inversion S; subst; [|destruct H].
        intros v E. destruct (fold_agrees _ _ _ _ _ _ _ _ _ N F E) as [-> V']. cbn. rewrite V'. reflexivity.
    + apply good_refl; auto.
    + assert (X : fails (ev e)).
      { eapply fold_error; eauto. apply fe_bad. rewrite F. exact I. }
      destruct (good_refl _ _ T) as [a1 a2 a3 a4 a5 a6]. constructor; auto.
      intros _. exists e. split; [constructor|exact X].
    + destruct D.
Qed.

Lemma visit_ub e k : ty e k -> neg_ok uneg e -> visit_node secs_ival secs_time st e = UB -> fails (ev e).
Proof.
  intros T N V. eapply fold_error; eauto. apply fe_bad.
  destruct e; unfold visit_node in V; try discriminate;
      match goal with |- context [fold_expression _ _ st ?x] => destruct (fe st x) as [[]| |] end; try discriminate; exact I.
Qed.

(** congruence: one operand *)
Definition ctx1 (f : expr -> expr) : Prop :=
  (forall a, operands (f a) = [a] /\ nodes (f a) = Datatypes.S (nodes a)) /\
  (forall a k, ty (f a) k -> exists k', ty a k' /\ forall a', ty a' k' -> ty (f a') k) /\
  (forall a, no_uneg (f a) = true -> no_uneg a = true /\ forall a', no_uneg a' = true -> no_uneg (f a') = true) /\
  (forall a a', refines a a' -> refines (f a) (f a')) /\
  (forall a b g c, f a <> EConst b g c).

Lemma sub_child y e : In y (operands e) -> (forall f b a, e <> EConst f b a) -> forall x, sub x y -> sub x e.
Proof. intros. eapply sub_op; eauto. Qed.

Lemma good1 f a k k' a' m er : ctx1 f -> ty (f a) k -> ty a k' -> (forall a', ty a' k' -> ty (f a') k) ->
  good a k' a' m er -> good (f a) k (f a') m er.
Proof.
  intros (O1 & _ & U1 & R1 & C1) T Ta Tf [a1 a2 a3 a4 a5 a6]. constructor.
  - auto.
  - intros N. destruct (U1 _ N) as [U U']. auto.
  - auto.
  - destruct (O1 a) as [_ ->], (O1 a') as [_ ->]. destruct m; [lia|congruence].
  - intros E. destruct (a5 E) as (x & S & F). exists x. split; [|exact F].
    eapply sub_child; eauto. destruct (O1 a) as [-> _]. left; reflexivity.
  - intros x' S. inversion S; subst.
    + exists (f a). split; [constructor|]. auto.
    + destruct (O1 a') as [E _]. rewrite E in H. destruct H as [<- | []]. destruct (a6 _ H1) as (x & S' & R'). exists x. split; [|exact R'].
      eapply sub_child; eauto. destruct (O1 a) as [-> _]. left; reflexivity.
Qed.

Definition ctx2 (f : expr -> expr -> expr) : Prop :=
  (forall a b, operands (f a b) = [a; b] /\ nodes (f a b) = Datatypes.S (nodes a + nodes b)) /\
  (forall a b, no_uneg (f a b) = no_uneg a && no_uneg b) /\
  (forall a b a' b', refines a a' -> refines b b' -> refines (f a b) (f a' b')) /\
  (forall a b g c d, f a b <> EConst g c d).

Lemma good2 f a b k k1 k2 a' b' m1 m2 er1 er2 : ctx2 f ->
  (forall a' b', ty a' k1 -> ty b' k2 -> ty (f a' b') k) ->
  good a k1 a' m1 er1 -> good b k2 b' m2 er2 -> good (f a b) k (f a' b') (m1 || m2) (er1 || er2).
Proof.
  intros (O1 & U1 & R1 & C1) Tf [a1 a2 a3 a4 a5 a6] [b1 b2 b3 b4 b5 b6]. constructor.
  - auto.
  - rewrite !U1, !andb_true_iff. tauto.
  - auto.
  - destruct (O1 a b) as [_ ->], (O1 a' b') as [_ ->]. destruct m1, m2; cbn [orb]; subst; auto; lia.
  - intros E. apply orb_true_iff in E.
    destruct E as [E|E]; [destruct (a5 E) as (x & S & F)|destruct (b5 E) as (x & S & F)]; exists x; (split; [|exact F]);
      (eapply sub_child; [| |exact S]; auto; destruct (O1 a b) as [-> _]; cbn; auto).
  - intros x' S. inversion S; subst.
    + exists (f a b). split; [constructor|]. auto.
    + destruct (O1 a' b') as [E _]. rewrite E in H. destruct H as [<- | [<- | []]];
       [destruct (a6 _ H1) as (x & S' & R')|destruct (b6 _ H1) as (x & S' & R')]; exists x; (split; [|exact R']);
       (eapply sub_child; [| |exact S']; auto; destruct (O1 a b) as [-> _]; cbn; auto).
Qed.

Lemma good3 a b c k a' b' c' m1 m2 m3 er1 er2 er3 :
  good a KBool a' m1 er1 -> good b k b' m2 er2 -> good c k c' m3 er3 ->
  good (ETern a b c) k (ETern a' b' c') (m1 || m2 || m3) (er1 || er2 || er3).
Proof.
  intros [a1 a2 a3 a4 a5 a6] [b1 b2 b3 b4 b5 b6] [c1 c2 c3 c4 c5 c6].
  assert (RR : refines (ETern a b c) (ETern a' b' c')).
  { intros v. cbn [eval]. destruct (ev a) as [x| |] eqn:E; cbn [bind]; try discriminate. rewrite (a3 _ E). cbn [bind].
    destruct x; try discriminate. destruct b0; auto. }
  constructor.
  - constructor; auto.
  - cbn [no_uneg]. rewrite !andb_true_iff. tauto.
  - exact RR.
  - cbn [nodes]. destruct m1, m2, m3; cbn [orb]; subst; auto; lia.
  - intros E. rewrite !orb_true_iff in E.
    destruct E as [[E|E]|E]; [destruct (a5 E) as (x & S & F)|destruct (b5 E) as (x & S & F)|destruct (c5 E) as (x & S & F)];
      exists x; (split; [|exact F]); (eapply sub_child; [| |exact S]; [cbn; auto|discriminate]).
  - intros x' S. inversion S; subst.
    + exists (ETern a b c). split; [constructor|]. exact RR.
    + cbn in H. destruct H as [<- | [<- | [<- | []]]];
       [destruct (a6 _ H1) as (x & S' & R')|destruct (b6 _ H1) as (x & S' & R')|destruct (c6 _ H1) as (x & S' & R')];
       exists x; (split; [|exact R']); (eapply sub_child; [| |exact S']; [cbn; auto|discriminate]).
Qed.

Ltac tyinv := match goal with H : typed _ _ _ _ |- _ => inversion H; subst; clear H end.

Ltac c1 := split; [intros; split; reflexivity|split; [intros ? ? T; inversion T; subst; eexists; (split; [eassumption|]); intros; econstructor; eassumption
  |split; [intros ? ?; cbn in *; rewrite ?andb_true_iff in *; intuition|split; [|discriminate]]]];
  intros a a' R v; cbn [eval]; destruct (ev a) as [x| |] eqn:E; cbn [bind]; try discriminate; rewrite (R _ E); auto.

Lemma ctx_neg s : ctx1 (ENeg s).
Proof.
  split; [intros; split; reflexivity|split; [intros ? ? T; inversion T; subst; eexists; (split; [eassumption|]); intros; econstructor; eassumption
  |split; [intros ? ?; cbn in *; rewrite ?andb_true_iff in *; intuition|split; [|discriminate]]]].
  intros a a' R v. destruct s; cbn [eval]; destruct (ev a) as [x| |] eqn:E; cbn [bind]; try discriminate; rewrite (R _ E); auto.
Qed.
Lemma ctx_group : ctx1 EGroup.
Proof.
  split; [intros; split; reflexivity|split; [intros ? ? T; inversion T; subst; eexists; (split; [eassumption|]); intros; econstructor; eassumption
  |split; [intros ? ?; cbn in *; intuition|split; [|discriminate]]]].
  intros a a' R v. cbn [eval]. apply R.
Qed.
Lemma ctx_not : ctx1 ENot. Proof. c1. Qed.
Lemma ctx_rneg : ctx1 ERNeg. Proof. c1. Qed.
Lemma ctx_err : ctx1 EErr. Proof. c1. Qed.
Lemma ctx_str : ctx1 EStr. Proof. c1. Qed.
Lemma ctx_conv f t w : ctx1 (EConv f t w). Proof. c1. Qed.
Lemma ctx_ival s u : ctx1 (EIval s u). Proof. c1. Qed.
Lemma ctx_time s u : ctx1 (ETime s u). Proof. c1. Qed.
Lemma ctx_or : ctx2 EOr.
Proof.
  split; [intros; split; reflexivity|split; [reflexivity|split; [|discriminate]]].
  intros a b a' b' R1 R2 v. cbn [eval]. destruct (ev a) as [x| |] eqn:E; cbn [bind]; try discriminate. rewrite (R1 _ E). cbn [bind].
  destruct x as [|[]| | | | | |]; auto.
Qed.
Lemma ctx_and : ctx2 EAnd.
Proof.
  split; [intros; split; reflexivity|split; [reflexivity|split; [|discriminate]]].
  intros a b a' b' R1 R2 v. cbn [eval]. destruct (ev a) as [x| |] eqn:E; cbn [bind]; try discriminate. rewrite (R1 _ E). cbn [bind].
  destruct x as [|[]| | | | | |]; auto.
Qed.
Lemma ctx_op n : ctx2 (EOp n).
Proof.
  split; [intros; split; reflexivity|split; [reflexivity|split; [|discriminate]]].
  intros a b a' b' R1 R2 v. cbn [eval]. destruct (ev a) as [x| |] eqn:E; cbn [bind]; try discriminate. rewrite (R1 _ E). cbn [bind].
  destruct (ev b) as [y| |] eqn:E2; cbn [bind]; try discriminate. rewrite (R2 _ E2). auto.
Qed.

(** what a pass gives: a good result, or UB because something in the expression fails *)
Definition pass_spec (e : expr) (k : kind) : Prop :=
  match pass secs_ival secs_time st e with
  | Ok r => good e k (v_expr r) (v_mod r) (v_err r)
  | Throw _ => False
  | UB => exists x, sub x e /\ fails (ev x)
  end.

Lemma visit_no_throw e ex : visit_node secs_ival secs_time st e <> Throw ex.
Proof. destruct e; unfold visit_node; try discriminate; match goal with |- context [fold_expression _ _ st ?x] => destruct (fe st x) as [[]| |] end; discriminate. Qed.

Lemma visit_after e k e1 m er : good e k e1 m er -> neg_ok uneg e ->
  match visit_node secs_ival secs_time st e1 with
  | Ok r => good e k (v_expr r) (m || v_mod r) (er || v_err r)
  | Throw _ => False
  | UB => exists x, sub x e /\ fails (ev x)
  end.
Proof.
  intros g N. destruct (visit_node secs_ival secs_time st e1) as [r|ex|] eqn:V.
  - eapply good_trans; [exact g|]. apply visit_good; auto; [apply g|eapply good_neg; eauto].
  - exact (visit_no_throw _ _ V).
  - exists e. split; [constructor|]. intros v E. apply (g_ref _ _ _ _ _ g) in E.
    exact (visit_ub e1 k (g_ty _ _ _ _ _ g) (good_neg _ _ _ _ _ g N) V v E).
Qed.

Lemma pass1 f e k : ctx1 f -> (forall e, neg_ok uneg (f e) -> neg_ok uneg e) ->
  (forall k, ty e k -> neg_ok uneg e -> pass_spec e k) -> ty (f e) k -> neg_ok uneg (f e) ->
  match (let* x := pass secs_ival secs_time st e in node1 secs_ival secs_time st f x) with
  | Ok r => good (f e) k (v_expr r) (v_mod r) (v_err r)
  | Throw _ => False
  | UB => exists x, sub x (f e) /\ fails (ev x)
  end.
Proof.
  intros C Nf IH T N. pose proof C as (O1 & T1 & U1 & R1 & C1). destruct (T1 _ _ T) as (k' & Te & Tf).
  specialize (IH k' Te (Nf _ N)). unfold pass_spec in IH.
  destruct (pass secs_ival secs_time st e) as [r| |]; cbn [bind].
  - pose proof (good1 f _ _ _ _ _ _ C T Te Tf IH) as g. pose proof (visit_after _ _ _ _ _ g N) as V. unfold node1.
    destruct (visit_node secs_ival secs_time st (f (v_expr r))); cbn [bind v_expr v_mod v_err]; exact V.
  - exact IH.
  - destruct IH as (x & S & F). exists x. split; [|exact F]. eapply sub_child; eauto. destruct (O1 e) as [-> _]. left; reflexivity.
Qed.

Lemma pass2 f a b k k1 k2 : ctx2 f -> ty a k1 -> ty b k2 ->
  (forall a' b', ty a' k1 -> ty b' k2 -> ty (f a' b') k) ->
  (forall k, ty a k -> neg_ok uneg a -> pass_spec a k) -> (forall k, ty b k -> neg_ok uneg b -> pass_spec b k) -> neg_ok uneg (f a b) ->
  match (let* x := pass secs_ival secs_time st a in let* y := pass secs_ival secs_time st b in node2 secs_ival secs_time st f x y) with
  | Ok r => good (f a b) k (v_expr r) (v_mod r) (v_err r)
  | Throw _ => False
  | UB => exists x, sub x (f a b) /\ fails (ev x)
  end.
Proof.
  intros C Ta Tb Tf IHa IHb N. pose proof C as (O1 & U1 & R1 & C1).
  assert (Na : neg_ok uneg a /\ neg_ok uneg b).
  { destruct N as [N|N]; [|split; right; exact N]. rewrite U1, andb_true_iff in N. split; left; tauto. }
  specialize (IHa _ Ta (proj1 Na)). specialize (IHb _ Tb (proj2 Na)). unfold pass_spec in *.
  destruct (pass secs_ival secs_time st a) as [ra| |]; cbn [bind]; [|exact IHa|].
  - destruct (pass secs_ival secs_time st b) as [rb| |]; cbn [bind]; [|exact IHb|].
    + pose proof (good2 f _ _ _ _ _ _ _ _ _ _ _ C Tf IHa IHb) as g. pose proof (visit_after _ _ _ _ _ g N) as V. unfold node2.
      destruct (visit_node secs_ival secs_time st (f (v_expr ra) (v_expr rb))); cbn [bind v_expr v_mod v_err]; exact V.
    + destruct IHb as (x & S & F). exists x. split; [|exact F]. eapply sub_child; [| |exact S]; auto. destruct (O1 a b) as [-> _]. cbn; auto.
  - destruct IHa as (x & S & F). exists x. split; [|exact F]. eapply sub_child; [| |exact S]; auto. destruct (O1 a b) as [-> _]. cbn; auto.
Qed.

Lemma leaf_spec e k : ty e k -> neg_ok uneg e -> pass secs_ival secs_time st e = visit_node secs_ival secs_time st e -> pass_spec e k.
Proof.
  intros T N E. unfold pass_spec. rewrite E. pose proof (visit_after e k e false false (good_refl _ _ T) N) as V.
  destruct (visit_node secs_ival secs_time st e); exact V.
Qed.

Ltac p1 C := unfold pass_spec; cbn [pass]; apply pass1; [exact C|let e0 := fresh in let NN := fresh in intros e0 NN; destruct NN as [NN|NN]; [left; cbn in NN; rewrite ?andb_true_iff in NN; tauto|right; exact NN]|assumption|assumption|assumption].

Lemma pass_good e : forall k, ty e k -> neg_ok uneg e -> pass_spec e k.
Proof.
  induction e; intros k T N.
  - apply leaf_spec; auto.
  - p1 (ctx_neg signed).
  - p1 ctx_group.
  - unfold pass_spec. cbn [pass]. inversion T; subst. eapply pass2; try exact N; try eassumption; [exact ctx_or|]. intros; constructor; auto.
  - unfold pass_spec. cbn [pass]. inversion T; subst. eapply pass2; try exact N; try eassumption; [exact ctx_and|]. intros; constructor; auto.
  - p1 ctx_not.
  - apply leaf_spec; auto.
  - apply leaf_spec; auto.
  - unfold pass_spec. cbn [pass]. inversion T; subst.
    assert (N1 : neg_ok uneg e1) by (eapply neg_ok_sub; [|exact N]; cbn; auto).
    assert (N2 : neg_ok uneg e2) by (eapply neg_ok_sub; [|exact N]; cbn; auto).
    assert (N3 : neg_ok uneg e3) by (eapply neg_ok_sub; [|exact N]; cbn; auto).
    specialize (IHe1 _ H2 N1). specialize (IHe2 _ H4 N2). specialize (IHe3 _ H5 N3). unfold pass_spec in *.
    destruct (pass secs_ival secs_time st e1) as [ra| |]; cbn [bind]; [|exact IHe1|].
    + destruct (pass secs_ival secs_time st e2) as [rb| |]; cbn [bind]; [|exact IHe2|].
      * destruct (pass secs_ival secs_time st e3) as [rc| |]; cbn [bind]; [|exact IHe3|].
        -- pose proof (good3 _ _ _ _ _ _ _ _ _ _ _ _ _ IHe1 IHe2 IHe3) as g. pose proof (visit_after _ _ _ _ _ g N) as V. unfold node3.
           destruct (visit_node secs_ival secs_time st (ETern (v_expr ra) (v_expr rb) (v_expr rc))); cbn [bind v_expr v_mod v_err]; exact V.
        -- destruct IHe3 as (x & S & F). exists x. split; [|exact F]. eapply sub_child; [| |exact S]; [cbn; auto|discriminate].
      * destruct IHe2 as (x & S & F). exists x. split; [|exact F]. eapply sub_child; [| |exact S]; [cbn; auto|discriminate].
    + destruct IHe1 as (x & S & F). exists x. split; [|exact F]. eapply sub_child; [| |exact S]; [cbn; auto|discriminate].
  - p1 ctx_rneg.
  - p1 ctx_err.
  - p1 ctx_str.
  - p1 (ctx_conv from to w).
  - p1 (ctx_ival s u).
  - p1 (ctx_time s u).
  - unfold pass_spec. cbn [pass]. inversion T; subst. eapply pass2; try exact N; try eassumption; [exact (ctx_op n)|]. intros; econstructor; eauto.
Qed.

(** all passes *)
Definition loop_result (e : expr) (k : kind) (er0 : bool) (r : res (option (expr * bool))) : Prop :=
  match r with
  | Ok None | Throw _ => False
  | Ok (Some (e', er)) =>
      ty e' k /\ refines e e' /\ (er = true -> er0 = true \/ exists x, sub x e /\ fails (ev x)) /\
      exists r', pass secs_ival secs_time st e' = Ok r' /\ v_mod r' = false
  | UB => exists x, sub x e /\ fails (ev x)
  end.

Lemma loop_good n : forall e k er0, ty e k -> neg_ok uneg e -> (nodes e < n)%nat ->
  loop_result e k er0 (fold_loop secs_ival secs_time n st e er0).
Proof.
  induction n; intros e k er0 T N L; [lia|]. cbn [fold_loop]. pose proof (pass_good e k T N) as P. unfold pass_spec in P.
  destruct (pass secs_ival secs_time st e) as [r| |] eqn:E; cbn [bind]; [|exact P|exact P].
  destruct (v_mod r) eqn:M.
  - pose proof (g_nodes _ _ _ _ _ P) as D; cbn iota in D.
    assert (IH := IHn (v_expr r) k (er0 || v_err r) (g_ty _ _ _ _ _ P) (good_neg _ _ _ _ _ P N) ltac:(lia)).
    unfold loop_result in *. destruct (fold_loop secs_ival secs_time n st (v_expr r) (er0 || v_err r)) as [[[e' er]|]| |]; auto.
    + destruct IH as (I1 & I2 & I3 & I4). split; [exact I1|]. split; [intros v E0; apply I2, (g_ref _ _ _ _ _ P), E0|]. split; [|exact I4].
      intros E0. destruct (I3 E0) as [E1|(x' & S & F)].
      * apply orb_true_iff in E1. destruct E1 as [E1|E1]; [auto|right; apply (g_err _ _ _ _ _ P E1)].
      * right. destruct (g_sub _ _ _ _ _ P _ S) as (x & S0 & R0). exists x. split; [exact S0|]. intros v E1. exact (F v (R0 v E1)).
    + destruct IH as (x' & S & F). destruct (g_sub _ _ _ _ _ P _ S) as (x & S0 & R0). exists x. split; [exact S0|].
      intros v E1. exact (F v (R0 v E1)).
  - pose proof (g_nodes _ _ _ _ _ P) as D; cbn iota in D. cbn. split; [apply P|]. split; [apply P|]. split.
    + intros E0. apply orb_true_iff in E0. destruct E0 as [E0|E0]; [auto|right; apply (g_err _ _ _ _ _ P E0)].
    + rewrite D. exists r. auto.
Qed.
End P.
