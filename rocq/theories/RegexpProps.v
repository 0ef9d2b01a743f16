(** C47: regular expressions share compiled state soundly. *)
From Verif Require Import Base PortModel PortSpec RegexpModel RegexpSpec RegexpProofs.
Open Scope Z_scope.

Definition requests_plain (l : list (list pattern * flags)) : Prop := forall ps f, In (ps, f) l -> Forall plain ps.

(** Which requests JustRX can compile. *)
Definition compilable (acc : list pattern -> pattern -> bool) (ps : list pattern) : Prop :=
  forall a p b, ps = a ++ p :: b -> acc a p = true.

Lemma compile_all_iff acc todo : forall done, (exists cps, compile_all acc done todo = Ok cps) <->
  (forall a p b, todo = a ++ p :: b -> acc (done ++ a) p = true).
Proof.
  induction todo as [|q r IH]; intros done; cbn.
  - split; [intros _ a p b E; destruct a; discriminate|eauto].
  - destruct (acc done q) eqn:E.
    + rewrite IH. split; intros H a p b Ea.
      * destruct a as [|x a]; [injection Ea as <- <-; rewrite app_nil_r; exact E|].
        injection Ea as <- ->. specialize (H a p b eq_refl). rewrite <- app_assoc in H. exact H.
      * rewrite <- app_assoc. apply (H (q :: a) p b). cbn. rewrite Ea. reflexivity.
    + split; [intros [c C]; discriminate|]. intros H. specialize (H [] q r eq_refl). rewrite app_nil_r in H. congruence.
Qed.

Lemma compile_all_throw acc todo : forall done, (exists cps, compile_all acc done todo = Ok cps) \/ compile_all acc done todo = Throw PatternError.
Proof. induction todo as [|p r IH]; intros done; cbn; [eauto|]. destruct (acc done p); auto. Qed.

Lemma key_nil_iff ps f : cache_key ps f = [] <-> ps = [].
Proof.
  split; [|intros ->; reflexivity]. destruct ps as [|p ps]; [reflexivity|]. rewrite key_rest. discriminate.
Qed.

Lemma key_inj_gen ps ps' f f' : Forall plain ps -> Forall plain ps' -> cache_key ps f = cache_key ps' f' ->
  ps = ps' /\ (ps = [] \/ f = f').
Proof.
  intros F F' E. destruct ps as [|p ps].
  - symmetry in E. apply key_nil_iff in E. subst. auto.
  - destruct ps' as [|p' ps']; [rewrite (proj2 (key_nil_iff [] f') eq_refl) in E; apply key_nil_iff in E; discriminate|].
    destruct (cache_key_inj _ _ _ _ F F' ltac:(discriminate) ltac:(discriminate) E); auto.
Qed.

(** C47. In every history of constructions, if the pattern texts do not imitate the end of a rendered pattern, then two
    constructed objects are the same object (compare equal) exactly if they were built from the same list of patterns and
    the same flags (the flags do not matter for the empty set of patterns), and each object's patterns and flags are those
    it was requested with. Objects never change later: [st'] is the final state. *)
Theorem C47_shared_iff_same_patterns : forall acc l st' outs,
  run_regexps acc rinit l = (st', outs) -> requests_plain l ->
  forall i j ps f ps' f' o o',
    nth_error l i = Some (ps, f) -> nth_error outs i = Some (Ok o) ->
    nth_error l j = Some (ps', f') -> nth_error outs j = Some (Ok o') ->
    (regexp_eqb o o' = true <-> ps = ps' /\ (ps = [] \/ f = f')) /\
    exists g, nth_error (objects st') o = Some (mkCompiled g ps) /\ (ps = [] \/ g = f).
Proof.
  intros acc l st' outs E P i j ps f ps' f' o o' Li Oi Lj Oj.
  destruct (run_ok acc l [] rinit ok_init) as ([OO OF] & _ & R). rewrite E in *. cbn [fst snd app] in *.
  pose proof (R _ _ _ _ Li Oi) as Ci. pose proof (R _ _ _ _ Lj Oj) as Cj.
  assert (Pi : Forall plain ps) by (eapply P, nth_error_In, Li).
  assert (Pj : Forall plain ps') by (eapply P, nth_error_In, Lj).
  split.
  - unfold regexp_eqb. rewrite Nat.eqb_eq. split.
    + intros <-. apply key_inj_gen; auto. eapply OF; eassumption.
    + intros [<- [-> | <-]]; [cbn in Ci, Cj|]; rewrite Ci in Cj; injection Cj as <-; reflexivity.
  - destruct (OO _ _ Ci) as (qs & g & I & K & O).
    destruct (key_inj_gen ps qs f g Pi (P _ _ I) K) as [<- D]. exists g. split; [exact O|]. destruct D; auto.
Qed.

(** C47. A construction fails exactly if JustRX rejects the patterns, no matter what was constructed before; the error is
    PatternError and is reported each time. *)
Theorem C47_fails_iff_not_compilable : forall acc l st' outs,
  run_regexps acc rinit l = (st', outs) -> requests_plain l ->
  forall i ps f r, nth_error l i = Some (ps, f) -> nth_error outs i = Some r ->
    (compilable acc ps -> exists o, r = Ok o) /\ (~ compilable acc ps -> r = Throw PatternError).
Proof.
  intros acc l.
  assert (G : forall hist st, ok_state hist st ->
     (forall k o, cache st k = Some (Some o) -> exists ps f, Forall plain ps /\ k = cache_key ps f /\ compilable acc ps) ->
     forall st' outs, run_regexps acc st l = (st', outs) -> requests_plain l ->
     forall i ps f r, nth_error l i = Some (ps, f) -> nth_error outs i = Some r ->
    (compilable acc ps -> exists o, r = Ok o) /\ (~ compilable acc ps -> r = Throw PatternError)).
  { induction l as [|[qs g] l IH]; intros hist st OK HC st' outs E P i ps f r Li Oi; [destruct i; discriminate|].
    cbn [run_regexps] in E. destruct (construct_ok acc hist st qs g OK) as (OK' & _).
    destruct (construct acc st qs g) as [st1 o1] eqn:E1. destruct (run_regexps acc st1 l) as [st2 os] eqn:E2.
    injection E as <- <-. cbn [fst snd] in OK'.
    assert (Pq : Forall plain qs) by (eapply P; left; reflexivity).
    assert (D : compilable acc qs <-> exists cps, compile_all acc [] qs = Ok cps).
    { rewrite compile_all_iff. cbn. reflexivity. }
    assert (K : (forall k o, cache st1 k = Some (Some o) -> exists ps f, Forall plain ps /\ k = cache_key ps f /\ compilable acc ps) /\
                (compilable acc qs -> exists o, o1 = Ok o) /\ (~ compilable acc qs -> o1 = Throw PatternError)).
    { unfold construct in E1. destruct (cache st (cache_key qs g)) as [[o|]|] eqn:C.
      1: { injection E1 as <- <-. split; [exact HC|]. split; [eauto|]. intros N. exfalso. apply N.
           destruct (HC _ _ C) as (qs' & g' & F & Ek & Cm). destruct (key_inj_gen _ _ _ _ Pq F Ek) as [-> _]. exact Cm. }
      all: destruct (compile_all_throw acc qs []) as [[cps Ec]|Ec]; rewrite Ec in E1; injection E1 as <- <-; cbn [cache];
        (split; [|split; [intros Y; try (destruct (proj1 D Y); congruence); eauto|
                         intros N; try (exfalso; apply N, D; eauto; fail); reflexivity]]);
        intros k o; destruct (beq_dec k (cache_key qs g)) as [-> | Nk]; rewrite ?kup_same, ?kup_other by assumption; try discriminate; eauto;
        intros _; exists qs, g; split; [exact Pq|split; [reflexivity|apply D; eauto]]. }
    destruct K as (K1 & K2 & K3). destruct i as [|i]; cbn [nth_error] in Li, Oi.
    - injection Li as <- <-. injection Oi as <-. auto.
    - eapply IH; [exact OK'|exact K1|exact E2| |exact Li|exact Oi]. intros a b I. eapply P. right. exact I. }
  apply (G [] rinit ok_init). cbn. discriminate.
Qed.

(** Without the side condition the property is false: the key joins rendered patterns without escaping, so the two-pattern
    set {a, b} and the single pattern a/|/b get the same object, whichever is constructed first. *)
Definition pat (v : bytes) : pattern := mkPattern v false 0.
Definition two_patterns : list pattern := [pat [97]; pat [98]].
Definition one_pattern : list pattern := [pat [97; 47; 124; 47; 98]].
Theorem C47_collision_refuted :
  two_patterns <> one_pattern /\
  forall acc f o st, compilable acc two_patterns -> construct acc rinit two_patterns f = (st, o) ->
    exists n, o = Ok n /\ construct acc st one_pattern f = (st, Ok n) /\
      nth_error (objects st) n = Some (mkCompiled f two_patterns).
Proof.
  split; [discriminate|]. intros acc f o st C E.
  assert (exists cps, compile_all acc [] two_patterns = Ok cps) as [cps Ec] by (apply compile_all_iff; exact C).
  pose proof (compile_all_ok _ _ _ _ Ec) as Q. cbn [app] in Q. subst cps.
  unfold construct in E. cbn [rinit cache] in E. rewrite Ec in E. injection E as <- <-. exists 0%nat. split; [reflexivity|].
  split; [|reflexivity]. unfold construct. cbn [cache].
  replace (cache_key one_pattern f) with (cache_key two_patterns f) by reflexivity. rewrite kup_same. reflexivity.
Qed.

(** The hypotheses are met by a history with five requests over slashes, flags, IDs and a rejected pattern. *)
Definition no_star (_ : list pattern) (p : pattern) : bool := match value p with 42 :: _ => false | _ => true end.
Definition sample : list (list pattern * flags) :=
  [([pat [97]], mkFlags false false);
   ([pat [97; 47; 98]; mkPattern [99] true 12], mkFlags true false);
   ([pat [42]], mkFlags false false);
   ([pat [97]], mkFlags true false);
   ([pat [97; 47; 98]; mkPattern [99] true 12], mkFlags true false);
   ([pat [42]], mkFlags false false)].

Lemma no_bar_plain p : 0 <= match_id p < 2 ^ 64 -> ~ In 124 (value p) -> plain p.
Proof.
  intros I N. split; [exact I|]. intros a s b E L. apply N. rewrite E. apply in_or_app. right. apply in_or_app. left.
  destruct (lle_inner _ L) as (m & -> & _). right. apply in_or_app. right. left. reflexivity.
Qed.

Example C47_sample_plain : requests_plain sample.
Proof.
  assert (In1 : forall p, p = pat [97] \/ p = pat [97; 47; 98] \/ p = mkPattern [99] true 12 \/ p = pat [42] -> plain p).
  { intros p H. apply no_bar_plain.
    - destruct H as [-> | [-> | [-> | ->]]]; cbn; change (2 ^ 64) with 18446744073709551616; lia.
    - destruct H as [-> | [-> | [-> | ->]]]; cbn; intuition discriminate. }
  intros ps f H. unfold sample in H. cbn [In] in H.
  repeat (destruct H as [H|H]; [injection H as <- <-; repeat constructor; apply In1; auto|]). destruct H.
Qed.

Example C47_sample_run :
  snd (run_regexps no_star rinit sample) = [Ok 0%nat; Ok 1%nat; Throw PatternError; Ok 2%nat; Ok 1%nat; Throw PatternError].
Proof. vm_compute. reflexivity. Qed.
