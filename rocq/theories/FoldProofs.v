From Verif Require Import Base IntModel TimeModel FoldModel FoldSpec.
Open Scope Z_scope.

Lemma neg_ok_sub uneg e x : In x (operands e) -> neg_ok uneg e -> neg_ok uneg x.
Proof.
  intros I [H|H]; [left|right; exact H].
  destruct e; cbn in *; try tauto; rewrite ?andb_true_iff in H;
    repeat match goal with H : _ \/ _ |- _ => destruct H end; subst; tauto.
Qed.

Section P.
Variables (secs_ival secs_time : src -> Z -> res Z).
Variables (env : nat -> value) (op : nat -> value -> value -> res value) (uneg : width -> Z -> res Z).
Notation fc := (fold_const secs_ival secs_time).
Notation ev := (eval secs_ival secs_time env op uneg).

Ltac inv H := inversion H; subst; clear H.
Ltac cases := repeat match goal with
  | H : bind ?x _ = Ok _ |- _ => let E := fresh "E" in destruct x eqn:E; cbn [bind] in H; try discriminate
  | H : rmap _ ?x = Ok _ |- _ => let E := fresh "E" in destruct x eqn:E; cbn [rmap] in H; try discriminate
  | H : context [match ?x with _ => _ end] |- _ => is_var x; destruct x; try discriminate
  | H : context [if ?x then _ else _] |- _ => let E := fresh "E" in destruct x eqn:E; try discriminate
  end.

Lemma in_range_i64 w z : in_range true w z = true -> i64_ok z = true.
Proof. unfold in_range, i64_ok. destruct w; cbn [bits_of]; intros; lia. Qed.

Lemma mk_ival_valid s u z v : mk_ival secs_ival s u z = Ok v -> valid v = true.
Proof. unfold mk_ival. intros. destruct u; cases; inv H; reflexivity. Qed.
Lemma mk_time_valid s u z v : mk_time secs_time s u z = Ok v -> valid v = true.
Proof. unfold mk_time. intros. destruct u; cases; inv H; reflexivity. Qed.

Lemma fold_agrees st e : forall c v, neg_ok uneg e -> fc st e = Ok (Some c) -> ev e = Ok v -> c = v /\ valid v = true.
Proof.
  induction e; intros c v' N F E.
  - cbn in *. destruct (valid v) eqn:V; inv F; inv E. auto.
  - assert (N' : neg_ok uneg e) by (eapply neg_ok_sub; [|exact N]; cbn; auto).
    destruct signed; cbn [fold_const eval] in F, E.
    + cases. destruct (IHe _ _ N' eq_refl eq_refl) as [E' V]. inv E'. unfold raw_neg64 in *. cases.
      inv E2. inv F. inv E. auto.
    + cases. destruct (IHe _ _ N' eq_refl eq_refl) as [E' V]. inv E'.
      unfold safe_negate in *. cases. inv F. inv E.
      destruct N as [N|N]; [discriminate|]. match goal with H : uneg _ _ = _ |- _ => rewrite N in H; cases; inv H end. inv E3. auto.
  - cbn [fold_const eval] in F, E. apply IHe; auto.
  - assert (N1 : neg_ok uneg e1) by (eapply neg_ok_sub; [|exact N]; cbn; auto).
    assert (N2 : neg_ok uneg e2) by (eapply neg_ok_sub; [|exact N]; cbn; auto).
    cbn [fold_const eval] in F, E. cases; inv F; inv E; destruct (IHe1 _ _ N1 eq_refl eq_refl) as [E' V]; inv E'; auto.
  - assert (N1 : neg_ok uneg e1) by (eapply neg_ok_sub; [|exact N]; cbn; auto).
    assert (N2 : neg_ok uneg e2) by (eapply neg_ok_sub; [|exact N]; cbn; auto).
    cbn [fold_const eval] in F, E. cases; inv F; inv E; destruct (IHe1 _ _ N1 eq_refl eq_refl) as [E' V]; inv E'; auto.
  - assert (N1 : neg_ok uneg e) by (eapply neg_ok_sub; [|exact N]; cbn; auto). cbn [fold_const eval] in F, E. cases; inv F; inv E.
    destruct (IHe _ _ N1 eq_refl eq_refl) as [E' V]. inv E'. auto.
  - assert (N1 : neg_ok uneg e) by (eapply neg_ok_sub; [|exact N]; cbn; auto). cbn [fold_const eval] in F, E. cases. eauto.
  - discriminate.
  - assert (N1 : neg_ok uneg e1) by (eapply neg_ok_sub; [|exact N]; cbn; auto). cbn [fold_const eval] in F, E.
    cases; inv F; destruct (IHe1 _ _ N1 eq_refl eq_refl) as [E' V]; inv E'; cbn in E; cases; inv E; auto.
  - assert (N1 : neg_ok uneg e) by (eapply neg_ok_sub; [|exact N]; cbn; auto). cbn [fold_const eval] in F, E. cases; inv F; inv E.
    destruct (IHe _ _ N1 eq_refl eq_refl) as [E' V]. inv E'. auto.
  - assert (N1 : neg_ok uneg e) by (eapply neg_ok_sub; [|exact N]; cbn; auto). cbn [fold_const eval] in F, E. cases; inv F; inv E.
    destruct (IHe _ _ N1 eq_refl eq_refl) as [E' V]. inv E'. auto.
  - assert (N1 : neg_ok uneg e) by (eapply neg_ok_sub; [|exact N]; cbn; auto). cbn [fold_const eval] in F, E. cases; inv F; inv E.
    destruct (IHe _ _ N1 eq_refl eq_refl) as [E' V]. inv E'. auto.
  - assert (N1 : neg_ok uneg e) by (eapply neg_ok_sub; [|exact N]; cbn; auto). cbn [fold_const eval] in F, E.
    destruct (fc st e) as [[y|]| |] eqn:F1; cbn [bind] in F; try discriminate.
    destruct (ev e) as [x| |] eqn:E1; cbn [bind] in E; try discriminate.
    destruct (IHe _ _ N1 eq_refl eq_refl) as [-> V].
    destruct x; try discriminate. destruct (Bool.eqb signed from) eqn:B; [|discriminate].
    destruct (in_range to w z) eqn:R; [|discriminate]. inv E.
    unfold to_int64, to_uint64 in F. destruct from, to; cases; cbn in F; cases; inv F; auto;
      match goal with H : Ok _ = Ok _ |- _ => inv H end; auto.
  - assert (N1 : neg_ok uneg e) by (eapply neg_ok_sub; [|exact N]; cbn; auto). cbn [fold_const eval] in F, E.
    destruct (fc st e) as [[y|]| |] eqn:F1; cbn [bind] in F; try discriminate.
    destruct (ev e) as [x| |] eqn:E1; cbn [bind] in E; try discriminate.
    destruct (IHe _ _ N1 eq_refl eq_refl) as [-> V].
    destruct (num_arg s x); [|discriminate]. rewrite E in F. inv F. split; [reflexivity|]. eapply mk_ival_valid; eauto.
  - assert (N1 : neg_ok uneg e) by (eapply neg_ok_sub; [|exact N]; cbn; auto). cbn [fold_const eval] in F, E.
    destruct (fc st e) as [[y|]| |] eqn:F1; cbn [bind] in F; try discriminate.
    destruct (ev e) as [x| |] eqn:E1; cbn [bind] in E; try discriminate.
    destruct (IHe _ _ N1 eq_refl eq_refl) as [-> V].
    destruct (num_arg s x); [|discriminate]. rewrite E in F. inv F. split; [reflexivity|]. eapply mk_time_valid; eauto.
  - discriminate.
Qed.

(** boolean expressions fold without error *)
Lemma bool_fold_total G O st e k : typed G O e k -> k = KBool -> exists r, fc st e = Ok r.
Proof.
  induction 1; intros K; try discriminate; cbn [fold_const].
  - eauto.
  - apply IHtyped; exact K.
  - destruct (IHtyped1 eq_refl) as [x ->], (IHtyped2 eq_refl) as [y ->]. cbn [bind].
    destruct x as [[]|], y as [[]|]; eauto.
  - destruct (IHtyped1 eq_refl) as [x ->], (IHtyped2 eq_refl) as [y ->]. cbn [bind].
    destruct x as [[]|], y as [[]|]; eauto.
  - destruct (IHtyped eq_refl) as [x ->]. cbn [bind]. destruct x as [[]|]; eauto.
  - destruct (f && negb (inline_feature st)); eauto.
  - eauto.
  - destruct (negb (fold_ternary st)); [eauto|]. destruct (IHtyped1 eq_refl) as [x ->]. cbn [bind].
    destruct x as [[]|]; eauto; destruct a; eauto; destruct b; eauto.
  - eauto.
Qed.

Definition bad {A} (r : res A) : Prop := match r with Ok _ => False | _ => True end.

Lemma fold_error G O st e k : typed G O e k -> neg_ok uneg e -> bad (fc st e) -> fails (ev e).
Proof.
  assert (A : forall e, (forall v, ev e <> Ok v) -> forall f, forall v : value, bind (ev e) f <> Ok v).
  { intros e0 H f v. destruct (ev e0); cbn; try congruence. }
  unfold fails. induction 1; intros N B v0.
  - destruct B.
  - assert (N1 : neg_ok uneg e) by (eapply neg_ok_sub; [|exact N]; cbn; auto).
    destruct (fc st e) as [r| |] eqn:F.
    + destruct (ev e) as [x| |] eqn:E.
      * destruct s; cbn [fold_const eval] in *; rewrite E, F in *; cbn [bind] in *.
        -- destruct r as [c|]; [|destruct B]. destruct (fold_agrees _ _ _ _ N1 F E) as [-> V].
           destruct x; try discriminate; try (destruct B; fail). destruct signed; [|destruct B].
           unfold raw_neg64 in B. destruct (z =? - 2 ^ 63) eqn:Z; [|destruct B].
           destruct (in_range true w0 (- z)) eqn:R; [|discriminate]. apply in_range_i64 in R. unfold i64_ok in R. lia.
        -- destruct r as [c|]; [|destruct B]. destruct (fold_agrees _ _ _ _ N1 F E) as [-> V].
           destruct x; try discriminate; try (destruct B; fail). destruct signed; [destruct B|].
           destruct N as [N|N]; [discriminate|]. rewrite N.
           destruct (in_range true w0 (- z)) eqn:R; [|discriminate]. apply in_range_i64 in R.
           unfold safe_negate in B. rewrite R in B. destruct B.
      * destruct s; cbn [eval]; rewrite E; discriminate.
      * destruct s; cbn [eval]; rewrite E; discriminate.
    + assert (IH : forall v, ev e <> Ok v) by (apply IHtyped; [exact N1|exact I]). destruct s; cbn [eval]; apply A; exact IH.
    + assert (IH : forall v, ev e <> Ok v) by (apply IHtyped; [exact N1|exact I]). destruct s; cbn [eval]; apply A; exact IH.
  - cbn [fold_const eval] in *. apply IHtyped; auto.
  - exfalso. destruct (bool_fold_total G O st (EOr a b) KBool) as [r R]; [constructor; auto|reflexivity|]. rewrite R in B. exact B.
  - exfalso. destruct (bool_fold_total G O st (EAnd a b) KBool) as [r R]; [constructor; auto|reflexivity|]. rewrite R in B. exact B.
  - exfalso. destruct (bool_fold_total G O st (ENot a) KBool) as [r R]; [constructor; auto|reflexivity|]. rewrite R in B. exact B.
  - cbn [fold_const eval] in *. destruct (f && negb (inline_feature st)); [destruct B|].
    apply IHtyped; auto.
  - destruct B.
  - exfalso. cbn [fold_const] in B. destruct (negb (fold_ternary st)); [exact B|].
    destruct (bool_fold_total G O st c KBool) as [r R]; [auto|reflexivity|]. rewrite R in B. cbn [bind] in B.
    destruct r as [[]|]; try exact B; destruct a; try exact B; destruct b; exact B.
  - assert (N1 : neg_ok uneg a) by (eapply neg_ok_sub; [|exact N]; cbn; auto). cbn [eval]. apply A. apply IHtyped; auto.
    cbn [fold_const] in B. destruct (fc st a) as [[[]|]| |]; exact B || exact I.
  - assert (N1 : neg_ok uneg a) by (eapply neg_ok_sub; [|exact N]; cbn; auto). cbn [eval]. apply A. apply IHtyped; auto.
    cbn [fold_const] in B. destruct (fc st a) as [[[]|]| |]; exact B || exact I.
  - assert (N1 : neg_ok uneg a) by (eapply neg_ok_sub; [|exact N]; cbn; auto). cbn [eval]. apply A. apply IHtyped; auto.
    cbn [fold_const] in B. destruct (fc st a) as [[[]|]| |]; exact B || exact I.
  - assert (N1 : neg_ok uneg a) by (eapply neg_ok_sub; [|exact N]; cbn; auto). cbn [eval fold_const] in *.
    destruct (fc st a) as [r| |] eqn:F; [|apply A, IHtyped; [exact N1|exact I]|apply A, IHtyped; [exact N1|exact I]].
    destruct (ev a) as [x| |] eqn:E; cbn [bind] in *; try discriminate.
    destruct r as [c|]; [|destruct B]. destruct (fold_agrees _ _ _ _ N1 F E) as [-> V].
    destruct x; try discriminate. destruct (Bool.eqb signed f); [|discriminate].
    destruct (in_range t w z) eqn:R; [|discriminate]. exfalso.
    destruct f, t; cbn [rmap bad] in B; try exact B.
    + unfold to_uint64 in B. destruct (z <? 0) eqn:L; [|exact B]. unfold in_range in R. destruct w; cbn [bits_of] in R; lia.
    + unfold to_int64 in B. apply in_range_i64 in R. rewrite R in B. exact B.
  - assert (N1 : neg_ok uneg a) by (eapply neg_ok_sub; [|exact N]; cbn; auto). cbn [eval fold_const] in *.
    destruct (fc st a) as [r| |] eqn:F; [|apply A, IHtyped; [exact N1|exact I]|apply A, IHtyped; [exact N1|exact I]].
    destruct (ev a) as [x| |] eqn:E; cbn [bind] in *; try discriminate.
    destruct r as [c|]; [|destruct B]. destruct (fold_agrees _ _ _ _ N1 F E) as [-> V].
    destruct (num_arg (SInt s) x); [|discriminate]. destruct (mk_ival secs_ival (SInt s) u z); [destruct B|discriminate|discriminate].
  - assert (N1 : neg_ok uneg a) by (eapply neg_ok_sub; [|exact N]; cbn; auto). cbn [eval fold_const] in *.
    destruct (fc st a) as [r| |] eqn:F; [|apply A, IHtyped; [exact N1|exact I]|apply A, IHtyped; [exact N1|exact I]].
    destruct (ev a) as [x| |] eqn:E; cbn [bind] in *; try discriminate.
    destruct r as [c|]; [|destruct B]. destruct (fold_agrees _ _ _ _ N1 F E) as [-> V].
    destruct (num_arg SReal x); [|discriminate]. destruct (mk_ival secs_ival SReal u z); [destruct B|discriminate|discriminate].
  - assert (N1 : neg_ok uneg a) by (eapply neg_ok_sub; [|exact N]; cbn; auto). cbn [eval fold_const] in *.
    destruct (fc st a) as [r| |] eqn:F; [|apply A, IHtyped; [exact N1|exact I]|apply A, IHtyped; [exact N1|exact I]].
    destruct (ev a) as [x| |] eqn:E; cbn [bind] in *; try discriminate.
    destruct r as [c|]; [|destruct B]. destruct (fold_agrees _ _ _ _ N1 F E) as [-> V].
    destruct (num_arg (SInt s) x); [|discriminate]. destruct (mk_time secs_time (SInt s) u z); [destruct B|discriminate|discriminate].
  - assert (N1 : neg_ok uneg a) by (eapply neg_ok_sub; [|exact N]; cbn; auto). cbn [eval fold_const] in *.
    destruct (fc st a) as [r| |] eqn:F; [|apply A, IHtyped; [exact N1|exact I]|apply A, IHtyped; [exact N1|exact I]].
    destruct (ev a) as [x| |] eqn:E; cbn [bind] in *; try discriminate.
    destruct r as [c|]; [|destruct B]. destruct (fold_agrees _ _ _ _ N1 F E) as [-> V].
    destruct (num_arg SReal x); [|discriminate]. destruct (mk_time secs_time SReal u z); [destruct B|discriminate|discriminate].
  - destruct B.
Qed.

(** one step: if the operands have values, a valid folded constant is the value *)
Lemma no_hiding_step st e c : neg_ok uneg e ->
  (forall x, In x (operands e) -> exists v, ev x = Ok v) ->
  fc st e = Ok (Some c) -> valid c = true -> ev e = Ok c.
Proof.
  intros N OKs F V.
  assert (K : forall x, In x (operands e) -> forall r, fc st x = Ok (Some r) -> ev x = Ok r).
  { intros x Ix r R. destruct (OKs x Ix) as [v E]. destruct (fold_agrees st x r v); auto.
    - eapply neg_ok_sub; eauto.
    - congruence. }
  destruct e; cbn [fold_const eval operands] in *.
  - inv F. rewrite V. reflexivity.
  - destruct signed; cbn [fold_const eval] in *.
    + cases. rewrite (K e (or_introl eq_refl) _ ltac:(eassumption)). cbn [bind]. unfold raw_neg64 in *. cases. inv E0. inv F.
      cbn [valid] in V. rewrite V. reflexivity.
    + cases. rewrite (K e (or_introl eq_refl) _ ltac:(eassumption)). cbn [bind]. unfold safe_negate in *. cases. inv E0. inv F.
      destruct N as [N|N]; [discriminate|]. rewrite N. cbn [valid] in V. rewrite V. reflexivity.
  - apply K; [left; reflexivity|exact F].
  - cases; inv F. rewrite (K e1 (or_introl eq_refl) _ ltac:(eassumption)). cbn [bind].
    destruct b; [reflexivity|]. rewrite (K e2 (or_intror (or_introl eq_refl)) _ ltac:(eassumption)). reflexivity.
  - cases; inv F. rewrite (K e1 (or_introl eq_refl) _ ltac:(eassumption)). cbn [bind].
    destruct b; [|reflexivity]. rewrite (K e2 (or_intror (or_introl eq_refl)) _ ltac:(eassumption)). reflexivity.
  - cases; inv F. rewrite (K e (or_introl eq_refl) _ ltac:(eassumption)). reflexivity.
  - destruct (feature && negb (inline_feature st)); [discriminate|]. apply K; [left; reflexivity|exact F].
  - discriminate.
  - cases; inv F; rewrite (K e1 (or_introl eq_refl) _ ltac:(eassumption)); cbn; rewrite V; reflexivity.
  - cases; inv F. rewrite (K e (or_introl eq_refl) _ ltac:(eassumption)). reflexivity.
  - cases; inv F. rewrite (K e (or_introl eq_refl) _ ltac:(eassumption)). reflexivity.
  - cases; inv F. rewrite (K e (or_introl eq_refl) _ ltac:(eassumption)). reflexivity.
  - destruct (fc st e) as [[y|]| |] eqn:F1; cbn [bind] in F; try discriminate.
    rewrite (K e (or_introl eq_refl) _ F1). cbn [bind]. destruct y; try discriminate.
    destruct (Bool.eqb signed from); [|discriminate].
    assert (c = VInt to w z) as ->.
    { unfold to_int64, to_uint64 in F. destruct from, to; cbn [rmap] in F; cases; cbn [rmap] in F; try discriminate; inv F; auto;
        match goal with H : Ok _ = Ok _ |- _ => inv H end; auto. }
    cbn [valid] in V. rewrite V. reflexivity.
  - destruct (fc st e) as [[y|]| |] eqn:F1; cbn [bind] in F; try discriminate.
    rewrite (K e (or_introl eq_refl) _ F1). cbn [bind]. destruct (num_arg s y); [|discriminate].
    destruct (mk_ival secs_ival s u z); try discriminate. inv F. reflexivity.
  - destruct (fc st e) as [[y|]| |] eqn:F1; cbn [bind] in F; try discriminate.
    rewrite (K e (or_introl eq_refl) _ F1). cbn [bind]. destruct (num_arg s y); [|discriminate].
    destruct (mk_time secs_time s u z); try discriminate. inv F. reflexivity.
  - discriminate.
Qed.
End P.
