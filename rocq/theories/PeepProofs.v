(** Proofs about PeepModel.v. *)
From Coq Require Import List Bool Arith Lia.
From Verif Require Import PeepModel PeepSpec.
Import ListNotations.

Scheme stmt_mi := Induction for stmt Sort Prop with stmts_mi := Induction for stmts Sort Prop
  with catches_mi := Induction for catches Sort Prop.
Combined Scheme stmt_mutind from stmt_mi, stmts_mi, catches_mi.
Scheme peep1_mi := Minimality for peep1 Sort Prop with peep_mi := Minimality for peep Sort Prop
  with peepc_mi := Minimality for peepc Sort Prop.
Combined Scheme peep_mutind from peep1_mi, peep_mi, peepc_mi.

(** ** Expressions *)
Lemma trivial_ev : forall e (v : nat -> nat), trivial e = true -> exists n, forall o', ev v o' e = (Val n, o').
Proof.
  induction e; intros v H; cbn in H; try discriminate H.
  - exists n; reflexivity.
  - exists (v x); reflexivity.
  - cbn. apply IHe; assumption.
Qed.
Lemma subst_trivial : forall x i n v, (forall o, ev v o i = (Val n, o)) ->
  forall b, trivial b = true -> forall o, ev v o (replace x i b) = ev (upd v x n) o b.
Proof.
  intros x i n v Hi. induction b; intros H o; cbn in H; try discriminate H; cbn.
  - reflexivity.
  - unfold upd. destruct (Nat.eqb_spec x x0) as [-> | Hx]; [apply Hi | reflexivity].
  - apply IHb; assumption.
Qed.
Lemma subst_all : forall x i n v, (forall o, ev v o i = (Val n, o)) ->
  forall b, all_trivial b = true -> forall o, ev v o (replace x i b) = ev (upd v x n) o b.
Proof.
  intros x i n v Hi. induction b; intros H o; try (cbn in H; discriminate H);
    try (apply subst_trivial; assumption).
  cbn [all_trivial] in H. apply andb_true_iff in H as [H1 H2].
  cbn. rewrite (subst_trivial x i n v Hi b1 H1).
  destruct (ev (upd v x n) o b1) as [[m | m] o1]; [| reflexivity].
  rewrite (IHb2 H2). reflexivity.
Qed.
Lemma peep_e_ev : forall e e', peep_e e e' -> forall v o, ev v o e = ev v o e'.
Proof.
  induction 1; intros v o; cbn; rewrite ?IHpeep_e; try reflexivity.
  - destruct (trivial_ev init v H) as [n Hn]. rewrite Hn. symmetry. apply subst_all; assumption.
  - destruct (ev v o a) as [[n | n] o1]; [rewrite IHpeep_e |]; reflexivity.
  - destruct (ev v o a) as [[n | n] o1]; [rewrite IHpeep_e |]; reflexivity.
  - destruct (ev v o a) as [[n | n] o1]; [rewrite IHpeep_e |]; reflexivity.
  - destruct (ev v o i) as [[n | n] o1]; [rewrite IHpeep_e |]; reflexivity.
Qed.

(** ** Statements *)
Definition eqv (w : bool) (a b : state) : Prop := same_but_error a b /\ (w = true -> err (me a) = err (me b)).
Definition sim (x : bool) (r1 r2 : outcome * state) : Prop :=
  fst r1 = fst r2 /\ eqv (match fst r1 with Nrm => x | _ => false end) (snd r1) (snd r2).
Lemma eqv_weaken w w' a b : (w' = true -> w = true) -> eqv w a b -> eqv w' a b.
Proof. intros Hw [H E]; split; [exact H | intro; apply E, Hw; assumption]. Qed.
Lemma sim_weaken x x' a b : (x' = true -> x = true) -> sim x a b -> sim x' a b.
Proof.
  intros Hx [H E]; split; [exact H |]. eapply eqv_weaken; [| exact E]. destruct (fst a); auto.
Qed.
Lemma eqv_refl w s : eqv w s s.
Proof. repeat split. Qed.

Lemma eval_eqv e w s1 s2 : eqv w s1 s2 -> fst (eval e s1) = fst (eval e s2) /\ eqv w (snd (eval e s1)) (snd (eval e s2)).
Proof.
  intros [(Hv & Hl & Hr & Ho) He]. unfold eval. rewrite Hv, Ho.
  destruct (ev (vars s2) (out (me s2)) e) as [r o]. cbn. repeat split; cbn; auto.
Qed.
Lemma eval_peep e e' s : peep_e e e' -> eval e s = eval e' s.
Proof. intro H. unfold eval. rewrite (peep_e_ev _ _ H). reflexivity. Qed.

Lemma bracketed_mono :
  (forall s w w' x, (w = true -> w' = true) -> bracketed1 w s = Some x -> exists y, bracketed1 w' s = Some y /\ (x = true -> y = true)) /\
  (forall s w w' x, (w = true -> w' = true) -> bracketed w s = Some x -> exists y, bracketed w' s = Some y /\ (x = true -> y = true)) /\
  (forall c : catches, True).
Proof.
  apply (stmt_mutind
    (fun s => forall w w' x, (w = true -> w' = true) -> bracketed1 w s = Some x -> exists y, bracketed1 w' s = Some y /\ (x = true -> y = true))
    (fun s => forall w w' x, (w = true -> w' = true) -> bracketed w s = Some x -> exists y, bracketed w' s = Some y /\ (x = true -> y = true))
    (fun _ => True)).
  - intros e w w' x Hw [= <-]. eexists; split; [reflexivity | auto].
  - intros y e w w' x Hw [= <-]. eexists; split; [reflexivity | auto].
  - intros w w' x Hw [= <-]. eexists; split; [reflexivity | auto].
  - intros w w' x Hw [= <-]. eexists; split; [reflexivity | auto].
  - intros w w' x Hw H. cbn in *. destruct w; [| discriminate]. rewrite Hw by reflexivity. injection H as <-. eauto.
  - intros h w w' x Hw H. cbn in *. destruct w; [| discriminate]. rewrite Hw by reflexivity. injection H as <-. eauto.
  - intros e a IHa b IHb w w' x Hw H. cbn in *.
    destruct (bracketed w a) as [x1 |] eqn:E1; [| discriminate]. destruct (bracketed w b) as [x2 |] eqn:E2; [| discriminate].
    injection H as <-. destruct (IHa _ _ _ Hw E1) as (y1 & -> & M1). destruct (IHb _ _ _ Hw E2) as (y2 & -> & M2).
    eexists; split; [reflexivity |]. rewrite !andb_true_iff. intros [? ?]; auto.
  - intros e b IHb w w' x Hw H. cbn in *. eauto.
  - intros b IHb w w' x Hw H. cbn in *. eauto.
  - intros b IHb c _ w w' x Hw H. cbn in *.
    destruct (bracketed w b) as [x1 |] eqn:E1; [| discriminate]. destruct (bracketed_catches c) as [x2 |]; [| discriminate].
    injection H as <-. destruct (IHb _ _ _ Hw E1) as (y1 & -> & M1).
    eexists; split; [reflexivity |]. rewrite !andb_true_iff. intros [? ?]; auto.
  - intros e w w' x Hw [= <-]. eexists; split; [reflexivity | auto].
  - intros w w' x Hw [= <-]. eexists; split; [reflexivity | auto].
  - intros w w' x Hw [= <-]. eexists; split; [reflexivity | auto].
  - intros w w' x Hw [= <-]. eexists; split; [reflexivity | auto].
  - intros s IHs r IHr w w' x Hw H. cbn in *.
    destruct (bracketed1 w s) as [x1 |] eqn:E1; [| discriminate]. destruct (IHs _ _ _ Hw E1) as (y1 & -> & M1).
    eapply IHr; eassumption.
  - exact I.
  - intros; exact I.
Qed.

Section sim.
  Context (hook : nat -> self -> option nat * self).
  Notation run1 := (run1 hook). Notation run := (run hook). Notation handle := (handle hook).

  Lemma run1_try fuel cur b c st : run1 fuel cur (STry b c) st = match run fuel cur b st with (Thrown n, st1) => handle fuel n c st1 | r => r end.
  Proof. reflexivity. Qed.
  Lemma run_cons fuel cur s r st : run fuel cur (Cons s r) st = match run1 fuel cur s st with (Nrm, st1) => run fuel cur r st1 | x => x end.
  Proof. reflexivity. Qed.
  Lemma handle_catch fuel n t b r st : handle fuel n (Catch t b r) st =
    if match t with None => true | Some k => k =? n end then run fuel n b st else handle fuel n r st.
  Proof. reflexivity. Qed.
  Lemma run1_block fuel cur b st : run1 fuel cur (SBlock b) st = run fuel cur b st.
  Proof. reflexivity. Qed.
  Lemma run1_if fuel cur e a b st : run1 fuel cur (SIf e a b) st =
    match eval e st with (Val 0, st1) => run fuel cur b st1 | (Val _, st1) => run fuel cur a st1 | (Exn n, st1) => (Thrown n, st1) end.
  Proof. reflexivity. Qed.

  Lemma loop_sim : forall c1 c2 b1 b2,
    (forall s1 s2, eqv false s1 s2 -> fst (c1 s1) = fst (c2 s2) /\ eqv false (snd (c1 s1)) (snd (c2 s2))) ->
    (forall s1 s2, eqv false s1 s2 -> sim false (b1 s1) (b2 s2)) ->
    forall fuel s1 s2, eqv false s1 s2 -> sim false (loop c1 b1 fuel s1) (loop c2 b2 fuel s2).
  Proof.
    intros c1 c2 b1 b2 Hc Hb. induction fuel as [| fuel IH]; intros s1 s2 E; cbn.
    - split; [reflexivity | exact E].
    - destruct (Hc _ _ E) as [H1 H2]. destruct (c1 s1) as [r1 t1], (c2 s2) as [r2 t2]. cbn in H1, H2. subst r2.
      destruct r1 as [[| n] | n]; [split; [reflexivity | exact H2] | | split; [reflexivity | exact H2]].
      destruct (Hb _ _ H2) as [H3 H4]. destruct (b1 t1) as [o1 u1], (b2 t2) as [o2 u2]. cbn in H3, H4. subst o2.
      destruct o1; try (split; [reflexivity | exact H4]). apply IH, H4.
  Qed.

  Lemma refl_sim :
    (forall s fuel cur w x s1 s2, bracketed1 w s = Some x -> eqv w s1 s2 -> sim x (run1 fuel cur s s1) (run1 fuel cur s s2)) /\
    (forall s fuel cur w x s1 s2, bracketed w s = Some x -> eqv w s1 s2 -> sim x (run fuel cur s s1) (run fuel cur s s2)) /\
    (forall c fuel n x s1 s2, bracketed_catches c = Some x -> eqv false s1 s2 -> sim x (handle fuel n c s1) (handle fuel n c s2)).
  Proof.
    apply stmt_mutind.
    - intros e fuel cur w x s1 s2 [= <-] E. cbn. destruct (eval_eqv e _ _ _ E) as [H1 H2].
      destruct (eval e s1) as [r1 t1], (eval e s2) as [r2 t2]. cbn in H1, H2. subst r2.
      destruct r1; (split; [reflexivity |]); cbn; [exact H2 |]. eapply eqv_weaken; [| exact H2]. discriminate.
    - intros y e fuel cur w x s1 s2 [= <-] E. cbn. destruct (eval_eqv e _ _ _ E) as [H1 H2].
      destruct (eval e s1) as [r1 t1], (eval e s2) as [r2 t2]. cbn in H1, H2. subst r2.
      destruct r1; (split; [reflexivity |]); cbn; [| eapply eqv_weaken; [| exact H2]; discriminate].
      destruct H2 as [(Hv & Hl & Hr & Ho) He]. repeat split; cbn; auto. rewrite Hv. reflexivity.
    - intros fuel cur w x s1 s2 [= <-] E. split; [reflexivity | exact E].
    - intros fuel cur w x s1 s2 [= <-] [(Hv & Hl & Hr & Ho) He]. repeat split; cbn; auto.
    - intros fuel cur w x s1 s2 H [(Hv & Hl & Hr & Ho) He]. cbn in H. destruct w; [| discriminate]. injection H as <-.
      repeat split; cbn; auto.
    - intros h fuel cur w x s1 s2 H [(Hv & Hl & Hr & Ho) He]. cbn in H. destruct w; [| discriminate]. injection H as <-.
      specialize (He eq_refl). destruct s1 as [v1 l1 [e1 r1 o1]], s2 as [v2 l2 [e2 r2 o2]]. cbn in *. subst.
      split; [reflexivity |]. apply eqv_refl.
    - intros e a IHa b IHb fuel cur w x s1 s2 H E. cbn in H.
      destruct (bracketed w a) as [x1 |] eqn:E1; [| discriminate]. destruct (bracketed w b) as [x2 |] eqn:E2; [| discriminate].
      injection H as <-. cbn. destruct (eval_eqv e _ _ _ E) as [H1 H2].
      destruct (eval e s1) as [r1 t1], (eval e s2) as [r2 t2]. cbn in H1, H2. subst r2.
      destruct r1 as [[| n] | n].
      + eapply sim_weaken; [| eapply IHb; eassumption]. rewrite andb_true_iff; tauto.
      + eapply sim_weaken; [| eapply IHa; eassumption]. rewrite andb_true_iff; tauto.
      + split; [reflexivity |]. eapply eqv_weaken; [| exact H2]. discriminate.
    - intros e b IHb fuel cur w x s1 s2 H E. cbn in H. destruct (bracketed false b) as [x1 |] eqn:E1; [| discriminate].
      injection H as <-. cbn. apply loop_sim.
      + intros; apply eval_eqv; assumption.
      + intros. eapply sim_weaken; [| eapply IHb; eassumption]. discriminate.
      + eapply eqv_weaken; [| exact E]. discriminate.
    - intros b IHb fuel cur w x s1 s2 H E. cbn in *. eapply IHb; eassumption.
    - intros b IHb c IHc fuel cur w x s1 s2 H E. cbn in H.
      destruct (bracketed w b) as [x1 |] eqn:E1; [| discriminate]. destruct (bracketed_catches c) as [x2 |] eqn:E2; [| discriminate].
      injection H as <-. rewrite !run1_try. destruct (IHb fuel cur _ _ _ _ E1 E) as [H1 H2].
      destruct (run fuel cur b s1) as [o1 t1], (run fuel cur b s2) as [o2 t2]. cbn in H1, H2. subst o2.
      destruct o1; try (split; [reflexivity | exact H2]).
      + split; [reflexivity |]. eapply eqv_weaken; [| exact H2]. cbn [fst]; rewrite andb_true_iff; tauto.
      + eapply sim_weaken; [| eapply IHc; [reflexivity | exact H2]]. rewrite andb_true_iff; tauto.
    - intros e fuel cur w x s1 s2 [= <-] E. cbn. destruct (eval_eqv e _ _ _ E) as [H1 H2].
      destruct (eval e s1) as [r1 t1], (eval e s2) as [r2 t2]. cbn in H1, H2. subst r2.
      destruct r1; (split; [reflexivity |]); cbn; (eapply eqv_weaken; [| exact H2]; discriminate).
    - intros fuel cur w x s1 s2 [= <-] E. split; [reflexivity |]. eapply eqv_weaken; [| exact E]. discriminate.
    - intros fuel cur w x s1 s2 [= <-] E. split; [reflexivity |]. eapply eqv_weaken; [| exact E]. discriminate.
    - intros fuel cur w x s1 s2 [= <-] E. split; [reflexivity | exact E].
    - intros s IHs r IHr fuel cur w x s1 s2 H E. cbn in H. destruct (bracketed1 w s) as [x1 |] eqn:E1; [| discriminate].
      rewrite !run_cons. destruct (IHs fuel cur _ _ _ _ E1 E) as [H1 H2].
      destruct (run1 fuel cur s s1) as [o1 t1], (run1 fuel cur s s2) as [o2 t2]. cbn in H1, H2. subst o2.
      destruct o1; try (split; [reflexivity | exact H2]). eapply IHr; eassumption.
    - intros fuel n x s1 s2 [= <-] E. split; [reflexivity | exact E].
    - intros t b IHb r IHr fuel n x s1 s2 H E. cbn in H.
      destruct (bracketed false b) as [x1 |] eqn:E1; [| discriminate]. destruct (bracketed_catches r) as [x2 |] eqn:E2; [| discriminate].
      injection H as <-. rewrite !handle_catch. destruct (match t with None => true | Some k => k =? n end).
      + eapply sim_weaken; [| eapply IHb; eassumption]. rewrite andb_true_iff; tauto.
      + eapply sim_weaken; [| eapply IHr; [reflexivity | exact E]]. rewrite andb_true_iff; tauto.
  Qed.

  Lemma peep_sim :
    (forall s s', peep1 s s' -> forall w x, bracketed1 w s = Some x -> exists y, bracketed1 w s' = Some y /\ (x = true -> y = true) /\
       forall fuel cur s1 s2, eqv w s1 s2 -> sim x (run1 fuel cur s s1) (run1 fuel cur s' s2)) /\
    (forall s s', peep s s' -> forall w x, bracketed w s = Some x -> exists y, bracketed w s' = Some y /\ (x = true -> y = true) /\
       forall fuel cur s1 s2, eqv w s1 s2 -> sim x (run fuel cur s s1) (run fuel cur s' s2)) /\
    (forall c c', peepc c c' -> forall x, bracketed_catches c = Some x -> exists y, bracketed_catches c' = Some y /\ (x = true -> y = true) /\
       forall fuel n s1 s2, eqv false s1 s2 -> sim x (handle fuel n c s1) (handle fuel n c' s2)).
  Proof.
    destruct refl_sim as (R1 & R & RC). destruct bracketed_mono as (M1 & M & _).
    apply peep_mutind.
    - intros e w x H. exists x; split; [exact H |]; split; [auto |]. intros fuel cur s1 s2 E. apply (R1 (SExpr e) fuel cur w x s1 s2 H E).
    - intros b t w x H. cbn in H. destruct (bracketed w b) as [x1 |] eqn:E1; [| discriminate].
      injection H as <-. exists x1. split; [exact E1 |]. split; [destruct x1; auto |].
      intros fuel cur s1 s2 E. rewrite run1_block, run1_try. destruct (R _ fuel cur _ _ _ _ E1 E) as [H1 H2].
      destruct (run fuel cur b s1) as [o1 t1], (run fuel cur b s2) as [o2 t2]. cbn in H1, H2. subst o2.
      destruct o1; try (split; [reflexivity | exact H2]).
      + split; [reflexivity |]. eapply eqv_weaken; [| exact H2]. destruct x1; discriminate.
      + rewrite handle_catch. destruct (match t with None => true | Some k => k =? n end); (split; [reflexivity | exact H2]).
    - intros e e' P w x H. exists x; split; [exact H |]; split; [auto |]. intros fuel cur s1 s2 E.
      generalize (R1 (SExpr e) fuel cur w x s1 s2 H E). cbn. rewrite (eval_peep _ _ s2 P). auto.
    - intros y e e' P w x H. exists x; split; [exact H |]; split; [auto |]. intros fuel cur s1 s2 E.
      generalize (R1 (SAssign y e) fuel cur w x s1 s2 H E). cbn. rewrite (eval_peep _ _ s2 P). auto.
    - intros e e' P w x H. exists x; split; [exact H |]; split; [auto |]. intros fuel cur s1 s2 E.
      generalize (R1 (SThrow e) fuel cur w x s1 s2 H E). cbn. rewrite (eval_peep _ _ s2 P). auto.
    - intros e e' a b P w x H. exists x; split; [exact H |]; split; [auto |]. intros fuel cur s1 s2 E.
      generalize (R1 (SIf e a b) fuel cur w x s1 s2 H E). cbn. rewrite (eval_peep _ _ s2 P). auto.
    - intros e e' b P w x H. exists x; split; [exact H |]; split; [auto |]. intros fuel cur s1 s2 E.
      cbn in H. destruct (bracketed false b) as [x1 |] eqn:E1; [| discriminate]. injection H as <-. cbn. apply loop_sim.
      + intros t1 t2 E'. rewrite <- (eval_peep _ _ t2 P). apply eval_eqv; assumption.
      + intros t1 t2 E'. eapply sim_weaken; [| eapply R; eassumption]. discriminate.
      + eapply eqv_weaken; [| exact E]. discriminate.
    - intros e a a' b _ IH w x H. cbn in H. destruct (bracketed w a) as [x1 |] eqn:E1; [| discriminate].
      destruct (bracketed w b) as [x2 |] eqn:E2; [| discriminate]. injection H as <-.
      destruct (IH _ _ E1) as (y & Hy & Hm & Hs). exists (y && x2). cbn [bracketed1 bracketed bracketed_catches]. rewrite Hy, E2. split; [reflexivity |].
      split; [rewrite !andb_true_iff; tauto |]. intros fuel cur s1 s2 E. rewrite !run1_if. destruct (eval_eqv e _ _ _ E) as [H1 H2].
      destruct (eval e s1) as [r1 t1], (eval e s2) as [r2 t2]. cbn in H1, H2. subst r2.
      destruct r1 as [[| n] | n].
      + eapply sim_weaken; [| eapply R; eassumption]. rewrite andb_true_iff; tauto.
      + eapply sim_weaken; [| eapply Hs; eassumption]. rewrite andb_true_iff; tauto.
      + split; [reflexivity |]. eapply eqv_weaken; [| exact H2]. discriminate.
    - intros e a b b' _ IH w x H. cbn in H. destruct (bracketed w a) as [x1 |] eqn:E1; [| discriminate].
      destruct (bracketed w b) as [x2 |] eqn:E2; [| discriminate]. injection H as <-.
      destruct (IH _ _ E2) as (y & Hy & Hm & Hs). exists (x1 && y). cbn [bracketed1 bracketed bracketed_catches]. rewrite Hy, E1. split; [reflexivity |].
      split; [rewrite !andb_true_iff; tauto |]. intros fuel cur s1 s2 E. rewrite !run1_if. destruct (eval_eqv e _ _ _ E) as [H1 H2].
      destruct (eval e s1) as [r1 t1], (eval e s2) as [r2 t2]. cbn in H1, H2. subst r2.
      destruct r1 as [[| n] | n].
      + eapply sim_weaken; [| eapply Hs; eassumption]. rewrite andb_true_iff; tauto.
      + eapply sim_weaken; [| eapply R; eassumption]. rewrite andb_true_iff; tauto.
      + split; [reflexivity |]. eapply eqv_weaken; [| exact H2]. discriminate.
    - intros e b b' _ IH w x H. cbn in H. destruct (bracketed false b) as [x1 |] eqn:E1; [| discriminate]. injection H as <-.
      destruct (IH _ _ E1) as (y & Hy & Hm & Hs). exists false. cbn [bracketed1 bracketed bracketed_catches]. rewrite Hy. split; [reflexivity |]. split; [auto |].
      intros fuel cur s1 s2 E. apply loop_sim.
      + intros; apply eval_eqv; assumption.
      + intros. eapply sim_weaken; [| eapply Hs; eassumption]. discriminate.
      + eapply eqv_weaken; [| exact E]. discriminate.
    - intros b b' _ IH w x H. cbn in H |- *. destruct (IH _ _ H) as (y & Hy & Hm & Hs). eauto.
    - intros b b' c _ IH w x H. cbn in H. destruct (bracketed w b) as [x1 |] eqn:E1; [| discriminate].
      destruct (bracketed_catches c) as [x2 |] eqn:E2; [| discriminate]. injection H as <-.
      destruct (IH _ _ E1) as (y & Hy & Hm & Hs). exists (y && x2). cbn [bracketed1 bracketed bracketed_catches]. rewrite Hy, E2. split; [reflexivity |].
      split; [rewrite !andb_true_iff; tauto |]. intros fuel cur s1 s2 E. rewrite !run1_try. destruct (Hs fuel cur _ _ E) as [H1 H2].
      destruct (run fuel cur b s1) as [o1 t1], (run fuel cur b' s2) as [o2 t2]. cbn in H1, H2. subst o2.
      destruct o1; try (split; [reflexivity | exact H2]).
      + split; [reflexivity |]. eapply eqv_weaken; [| exact H2]. cbn [fst]; rewrite andb_true_iff; tauto.
      + eapply sim_weaken; [| eapply RC; [exact E2 | exact H2]]. rewrite andb_true_iff; tauto.
    - intros b c c' _ IH w x H. cbn in H. destruct (bracketed w b) as [x1 |] eqn:E1; [| discriminate].
      destruct (bracketed_catches c) as [x2 |] eqn:E2; [| discriminate]. injection H as <-.
      destruct (IH _ eq_refl) as (y & Hy & Hm & Hs). exists (x1 && y). cbn [bracketed1 bracketed bracketed_catches]. rewrite Hy, E1. split; [reflexivity |].
      split; [rewrite !andb_true_iff; tauto |]. intros fuel cur s1 s2 E. rewrite !run1_try. destruct (R _ fuel cur _ _ _ _ E1 E) as [H1 H2].
      destruct (run fuel cur b s1) as [o1 t1], (run fuel cur b s2) as [o2 t2]. cbn in H1, H2. subst o2.
      destruct o1; try (split; [reflexivity | exact H2]).
      + split; [reflexivity |]. eapply eqv_weaken; [| exact H2]. cbn [fst]; rewrite andb_true_iff; tauto.
      + eapply sim_weaken; [| eapply Hs; exact H2]. rewrite andb_true_iff; tauto.
    - intros r w x H. cbn in H. exists x. split; [exact H |]. split; [auto |]. intros fuel cur s1 s2 E. cbn. eapply R; eassumption.
    - intros r w x H. cbn in H. destruct (M r false w x) as (y & Hy & Hm); [discriminate | exact H |]. exists y. split; [exact Hy |].
      split; [exact Hm |]. intros fuel cur s1 s2 E. cbn. eapply R; [exact H |].
      destruct E as [(Hv & Hl & Hr & Ho) He]. repeat split; cbn; auto. discriminate.
    - intros r w x H. cbn in H. destruct (M r false w x) as (y & Hy & Hm); [discriminate | exact H |]. exists y. split; [exact Hy |].
      split; [exact Hm |]. intros fuel cur s1 s2 E. cbn. eapply R; [exact H |].
      destruct E as [(Hv & Hl & Hr & Ho) He]. repeat split; cbn; auto. discriminate.
    - intros s s' r _ IH w x H. cbn in H. destruct (bracketed1 w s) as [x1 |] eqn:E1; [| discriminate].
      destruct (IH _ _ E1) as (y1 & Hy1 & Hm1 & Hs1). destruct (M r x1 y1 x Hm1 H) as (y & Hy & Hm). exists y. cbn [bracketed1 bracketed bracketed_catches]. rewrite Hy1.
      split; [exact Hy |]. split; [exact Hm |]. intros fuel cur s1 s2 E. rewrite !run_cons. destruct (Hs1 fuel cur _ _ E) as [H1 H2].
      destruct (run1 fuel cur s s1) as [o1 t1], (run1 fuel cur s' s2) as [o2 t2]. cbn in H1, H2. subst o2.
      destruct o1; try (split; [reflexivity | exact H2]). eapply R; eassumption.
    - intros s r r' _ IH w x H. cbn in H. destruct (bracketed1 w s) as [x1 |] eqn:E1; [| discriminate].
      destruct (IH _ _ H) as (y & Hy & Hm & Hs). exists y. cbn [bracketed1 bracketed bracketed_catches]. rewrite E1. split; [exact Hy |]. split; [exact Hm |].
      intros fuel cur s1 s2 E. rewrite !run_cons. destruct (R1 _ fuel cur _ _ _ _ E1 E) as [H1 H2].
      destruct (run1 fuel cur s s1) as [o1 t1], (run1 fuel cur s s2) as [o2 t2]. cbn in H1, H2. subst o2.
      destruct o1; try (split; [reflexivity | exact H2]). eapply Hs; eassumption.
    - intros t b b' r _ IH x H. cbn in H. destruct (bracketed false b) as [x1 |] eqn:E1; [| discriminate].
      destruct (bracketed_catches r) as [x2 |] eqn:E2; [| discriminate]. injection H as <-.
      destruct (IH _ _ E1) as (y & Hy & Hm & Hs). exists (y && x2). cbn [bracketed1 bracketed bracketed_catches]. rewrite Hy, E2. split; [reflexivity |].
      split; [rewrite !andb_true_iff; tauto |]. intros fuel n s1 s2 E. rewrite !handle_catch.
      destruct (match t with None => true | Some k => k =? n end).
      + eapply sim_weaken; [| eapply Hs; eassumption]. rewrite andb_true_iff; tauto.
      + eapply sim_weaken; [| eapply RC; [exact E2 | exact E]]. rewrite andb_true_iff; tauto.
    - intros t b r r' _ IH x H. cbn in H. destruct (bracketed false b) as [x1 |] eqn:E1; [| discriminate].
      destruct (bracketed_catches r) as [x2 |] eqn:E2; [| discriminate]. injection H as <-.
      destruct (IH _ eq_refl) as (y & Hy & Hm & Hs). exists (x1 && y). cbn [bracketed1 bracketed bracketed_catches]. rewrite Hy, E1. split; [reflexivity |].
      split; [rewrite !andb_true_iff; tauto |]. intros fuel n s1 s2 E. rewrite !handle_catch.
      destruct (match t with None => true | Some k => k =? n end).
      + eapply sim_weaken; [| eapply R; eassumption]. rewrite andb_true_iff; tauto.
      + eapply sim_weaken; [| eapply Hs; exact E]. rewrite andb_true_iff; tauto.
  Qed.

  Lemma peeps_sim p p' : peeps p p' -> forall x, bracketed false p = Some x ->
    forall fuel cur s1 s2, eqv false s1 s2 -> sim false (run fuel cur p s1) (run fuel cur p' s2).
  Proof.
    induction 1 as [p | p p1 p2 H1 _ IH]; intros x H fuel cur s1 s2 E.
    - eapply sim_weaken; [| eapply refl_sim; eassumption]. discriminate.
    - destruct (proj1 (proj2 peep_sim) _ _ H1 _ _ H) as (y & Hy & _ & Hs).
      specialize (Hs fuel cur _ _ E). specialize (IH y Hy fuel cur s2 s2 (eqv_refl _ _)).
      destruct Hs as [A B], IH as [C D]. split; [congruence |].
      assert (B' : eqv false (snd (run fuel cur p s1)) (snd (run fuel cur p1 s2))) by (eapply eqv_weaken; [| exact B]; discriminate).
      assert (D' : eqv false (snd (run fuel cur p1 s2)) (snd (run fuel cur p2 s2))) by (eapply eqv_weaken; [| exact D]; discriminate).
      destruct B' as [(b1 & b2 & b3 & b4) _], D' as [(d1 & d2 & d3 & d4) _].
      split; [repeat split; congruence |]. destruct (fst (run fuel cur p s1)); discriminate.
  Qed.
End sim.

(** ** Programs that do not hand over the error *)
Lemma no_push_peep :
  (forall s s', peep1 s s' -> no_push1 s = true -> no_push1 s' = true) /\
  (forall s s', peep s s' -> no_push s = true -> no_push s' = true) /\
  (forall c c', peepc c c' -> no_push_catches c = true -> no_push_catches c' = true).
Proof. apply peep_mutind; intros; cbn [no_push1 no_push no_push_catches] in *; rewrite ?andb_true_iff in *; tauto. Qed.

Section exact.
  Context (hook : nat -> self -> option nat * self).
  Notation run1 := (run1 hook). Notation run := (run hook). Notation handle := (handle hook).
  Lemma loop_ext c1 c2 b1 b2 : (forall s, c1 s = c2 s) -> (forall s, b1 s = b2 s) -> forall fuel s, loop c1 b1 fuel s = loop c2 b2 fuel s.
  Proof.
    intros Hc Hb. induction fuel as [| fuel IH]; intro s; cbn; [reflexivity |]. rewrite Hc.
    destruct (c2 s) as [[[| n] | n] t]; try reflexivity. rewrite Hb. destruct (b2 t) as [[] u]; try reflexivity. apply IH.
  Qed.
  Lemma run1_while fuel cur e b st : run1 fuel cur (SWhile e b) st = loop (eval e) (run fuel cur b) fuel st.
  Proof. reflexivity. Qed.
  Lemma peep_exact :
    (forall s s', peep1 s s' -> no_push1 s = true -> forall fuel cur st, run1 fuel cur s st = run1 fuel cur s' st) /\
    (forall s s', peep s s' -> no_push s = true -> forall fuel cur st, run fuel cur s st = run fuel cur s' st) /\
    (forall c c', peepc c c' -> no_push_catches c = true -> forall fuel n st, handle fuel n c st = handle fuel n c' st).
  Proof.
    apply peep_mutind.
    - intros; reflexivity.
    - intros b t H fuel cur st. rewrite run1_try, run1_block. destruct (run fuel cur b st) as [[] st1]; try reflexivity.
      rewrite handle_catch. destruct (match t with None => true | Some k => k =? n end); reflexivity.
    - intros e e' P H fuel cur st. cbn. rewrite (eval_peep _ _ st P). reflexivity.
    - intros y e e' P H fuel cur st. cbn. rewrite (eval_peep _ _ st P). reflexivity.
    - intros e e' P H fuel cur st. cbn. rewrite (eval_peep _ _ st P). reflexivity.
    - intros e e' a b P H fuel cur st. rewrite !run1_if, (eval_peep _ _ st P). reflexivity.
    - intros e e' b P H fuel cur st. rewrite !run1_while. apply loop_ext; [intro; apply eval_peep, P | reflexivity].
    - intros e a a' b _ IH H fuel cur st. cbn [no_push1] in H. apply andb_true_iff in H as [H _].
      rewrite !run1_if. destruct (eval e st) as [[[| n] | n] t]; try reflexivity. apply IH, H.
    - intros e a b b' _ IH H fuel cur st. cbn [no_push1] in H. apply andb_true_iff in H as [_ H].
      rewrite !run1_if. destruct (eval e st) as [[[| n] | n] t]; try reflexivity. apply IH, H.
    - intros e b b' _ IH H fuel cur st. rewrite !run1_while. apply loop_ext; [reflexivity | intro; apply IH, H].
    - intros b b' _ IH H fuel cur st. rewrite !run1_block. apply IH, H.
    - intros b b' c _ IH H fuel cur st. cbn [no_push1] in H. apply andb_true_iff in H as [H _]. rewrite !run1_try, (IH H). reflexivity.
    - intros b c c' _ IH H fuel cur st. cbn [no_push1] in H. apply andb_true_iff in H as [_ H]. rewrite !run1_try.
      destruct (run fuel cur b st) as [[] st1]; try reflexivity. apply IH, H.
    - intros; reflexivity.
    - intros r H. discriminate H.
    - intros r H. discriminate H.
    - intros s s' r _ IH H fuel cur st. cbn [no_push] in H. apply andb_true_iff in H as [H _]. rewrite !run_cons, (IH H). reflexivity.
    - intros s r r' _ IH H fuel cur st. cbn [no_push] in H. apply andb_true_iff in H as [_ H]. rewrite !run_cons.
      destruct (run1 fuel cur s st) as [[] st1]; try reflexivity. apply IH, H.
    - intros t b b' r _ IH H fuel n st. cbn [no_push_catches] in H. apply andb_true_iff in H as [H _]. rewrite !handle_catch, (IH H). reflexivity.
    - intros t b r r' _ IH H fuel n st. cbn [no_push_catches] in H. apply andb_true_iff in H as [_ H]. rewrite !handle_catch, (IH H). reflexivity.
  Qed.
  Lemma peeps_exact p p' : peeps p p' -> no_push p = true -> forall fuel cur st, run fuel cur p st = run fuel cur p' st.
  Proof.
    induction 1 as [| p p1 p2 H1 _ IH]; intros H fuel cur st; [reflexivity |].
    rewrite (proj1 (proj2 peep_exact) _ _ H1 H). apply IH. exact (proj1 (proj2 no_push_peep) _ _ H1 H).
  Qed.
End exact.

(** ** Termination *)
Fixpoint count_e (e : expr) : nat :=
  match e with
  | EConst _ | EVar _ => 0
  | EAdd a b | EDiv a b | ESeq a b => count_e a + count_e b
  | ECall e | ECoerced e => count_e e
  | EMove e => S (count_e e)
  | EGroup _ i b => S (count_e i + count_e b)
  end.
Fixpoint count1 (s : stmt) : nat :=
  match s with
  | SExpr e | SAssign _ e | SThrow e => count_e e
  | SVoid | SPush => 1
  | SIf e a b => count_e e + count a + count b
  | SWhile e b => count_e e + count b
  | SBlock b => count b
  | STry b c => S (count b + count_c c)
  | _ => 0
  end
with count (ss : stmts) : nat := match ss with Nil => 0 | Cons s r => count1 s + count r end
with count_c (c : catches) : nat := match c with NoCatch => 0 | Catch _ b r => count b + count_c r end.
Lemma trivial_count e : trivial e = true -> count_e e = 0.
Proof. induction e; cbn; intro H; try discriminate H; auto. Qed.
Lemma trivial_replace x i e : trivial i = true -> trivial e = true -> trivial (replace x i e) = true.
Proof. intro Hi. induction e; cbn; intro H; try discriminate H; auto. destruct (x =? x0); auto. Qed.
Lemma all_trivial_count x i e : trivial i = true -> all_trivial e = true -> count_e (replace x i e) = 0.
Proof.
  intro Hi. induction e; intro H; try (cbn in H; discriminate H);
    try (apply trivial_count, trivial_replace; assumption).
  cbn [all_trivial] in H. apply andb_true_iff in H as [H1 H2]. cbn. rewrite (IHe2 H2), trivial_count; [reflexivity |].
  apply trivial_replace; assumption.
Qed.
Lemma peep_e_count e e' : peep_e e e' -> count_e e' < count_e e.
Proof. induction 1; cbn; try lia. rewrite all_trivial_count by assumption. lia. Qed.
Lemma peep_count :
  (forall s s', peep1 s s' -> count1 s' < count1 s) /\ (forall s s', peep s s' -> count s' < count s) /\
  (forall c c', peepc c c' -> count_c c' < count_c c).
Proof.
  apply peep_mutind; intros; cbn [count1 count count_c count_e];
    try match goal with H : peep_e _ _ |- _ => apply peep_e_count in H end; lia.
Qed.
