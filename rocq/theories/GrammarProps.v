(** C49, C50, C51: the grammar tables of the Spicy compiler. *)
From Verif Require Import Base GrammarModel GrammarSpec GrammarProofs GrammarProofs2 GrammarProofs3.

Lemma derives_paths g a b : derives g a b -> Forall (path g (g_root g)) a -> Forall (path g (g_root g)) b.
Proof.
  induction 1 as [l|l m n D IH ST]; [auto|]. intros F. specialize (IH F).
  inversion ST; subst; alts; apply Forall_app in IH; destruct IH as (F0 & F1); inversion F1; subst; apply Forall_app; split; auto.
  apply Forall_app. split; [|assumption]. apply Forall_forall. intros z Z. eapply path_snoc; eauto.
Qed.
Lemma reached_path g s : reached g s -> path g (g_root g) s.
Proof. intros (x & y & D). apply derives_path in D. apply Forall_app in D. destruct D as (_ & D). inversion D; subst. assumption. Qed.
Lemma path_reached g s : path g (g_root g) s -> reached g s.
Proof.
  induction 1 as [|b rhs z P (x & y & D) R I].
  - exists [], []. constructor.
  - apply in_split in I. destruct I as (u & v & ->). exists (x ++ u), (v ++ y). pose proof (derives_expand g _ _ _ _ R D) as E.
    rewrite <- app_assoc in E. cbn [app] in E. rewrite <- app_assoc. exact E.
Qed.
Section S.
Context (g g' : grammar) (SF : simplified g g').
Let R := path g (g_root g).
Lemma sf_empty s : R s -> can_be_empty g' s <-> can_be_empty g s.
Proof. intros P. unfold can_be_empty. symmetry. apply (sf_derives _ _ SF). constructor; [exact P|constructor]. Qed.
Lemma sf_token x : R x -> token g' x <-> token g x.
Proof. intros P. unfold token. rewrite (sf_find _ _ SF x P). reflexivity. Qed.
Lemma sf_start l x : Forall R l -> can_start g' l x <-> can_start g l x.
Proof.
  intros F. unfold can_start. split; intros (T & m & D).
  - apply (sf_derives _ _ SF _ _ F) in D. pose proof (derives_paths _ _ _ D F) as F'. inversion F'; subst. split; [apply sf_token; assumption|eauto].
  - pose proof (derives_paths _ _ _ D F) as F'. apply (sf_derives _ _ SF _ _ F) in D. inversion F'; subst. split; [apply sf_token; assumption|eauto].
Qed.
Lemma sf_root_path : Forall R [g_root g].
Proof. constructor; [constructor|constructor]. Qed.
Lemma sf_follow s x : can_follow g' s x <-> can_follow g s x.
Proof.
  unfold can_follow. rewrite (sf_root _ _ SF). split; intros (T & u & v & D).
  - apply (sf_derives _ _ SF _ _ sf_root_path) in D. pose proof (derives_path _ _ D) as F. apply Forall_app in F. destruct F as (_ & F).
    inversion F as [|? ? A B]; subst. inversion B; subst. split; [apply sf_token; assumption|eauto].
  - pose proof (derives_path _ _ D) as F. apply (sf_derives _ _ SF _ _ sf_root_path) in D. apply Forall_app in F. destruct F as (_ & F).
    inversion F as [|? ? A B]; subst. inversion B; subst. split; [apply sf_token; assumption|eauto].
Qed.
Lemma sf_next s a x : In [a] (rhss_of g s) -> next_token g s a x -> next_token g' s a x.
Proof.
  intros IN (u & v & D & ST). exists u, v. rewrite (sf_root _ _ SF). pose proof (derives_path _ _ D) as F. split; [apply (sf_derives _ _ SF _ _ sf_root_path); exact D|].
  apply Forall_app in F. destruct F as (_ & F). inversion F as [|? ? A B]; subst. apply sf_start; [|exact ST]. constructor; [|exact B]. eapply path_snoc; [exact A|exact IN|left; reflexivity].
Qed.
End S.

Lemma finalize_inv m n g g' t : complete g -> finalize m n g = Some (Accepted g' t) ->
  simplified g g' /\ sound g' t /\ final g' t /\ check g' t (g_nterms g') = None.
Proof.
  intros C H. unfold finalize in H. destruct (simplify m g) as [h|] eqn:E1; [|discriminate]. destruct (rounds n h no_tables) as [u|] eqn:E2; [|discriminate].
  destruct (check h u (g_nterms h)) eqn:E3; [discriminate|]. injection H as <- <-. pose proof (simplify_simplified _ _ _ C E1) as S1.
  destruct (rounds_result _ _ _ _ E2 (sf_reached _ _ S1) (no_tables_sound h)). auto.
Qed.
Lemma nterm_terminal g s : complete g -> In s (g_nterms g) -> terminal g s = false.
Proof. intros C I. apply (cp_nterm g C) in I. destruct I as (p & F & T). unfold terminal. rewrite F. exact T. Qed.

(** C49: the tables of an accepted grammar say exactly what its derivations say (spec: GrammarSpec.v), for every production the
    root reaches; simplification removes just the others. *)
Theorem C49_tables_exact g m n g' t : complete g -> finalize m n g = Some (Accepted g' t) ->
  forall s, In s (g_nterms g') ->
    (t_null t s = true <-> can_be_empty g s) /\
    (forall x, In x (t_first t s) <-> can_start g [s] x) /\
    (forall x, In x (t_follow t s) <-> can_follow g s x).
Proof.
  intros C H s I. destruct (finalize_inv _ _ _ _ _ C H) as (SF & (S1 & S2 & S3) & FI & _). pose proof (sf_complete _ _ SF) as C'.
  pose proof (nterm_terminal _ _ C' I) as T. assert (P : path g (g_root g) s) by (apply (sf_nterms _ _ SF); exact I).
  repeat split.
  - intros N. apply (sf_empty g g' SF s P). apply Nul_iff. apply S1. exact N.
  - intros N. apply (sf_empty g g' SF s P) in N. apply Nul_iff in N. apply (nul_complete _ _ C' FI) in N. rewrite nullable_nonterm in N by exact T. exact N.
  - apply S2 in H0. apply Fst_iff in H0. apply (sf_start g g' SF [s] x) in H0; [apply H0|constructor; [exact P|constructor]].
  - apply S2 in H0. apply Fst_iff in H0. apply (sf_start g g' SF [s] x) in H0; [apply H0|constructor; [exact P|constructor]].
  - intros K. apply (sf_start g g' SF [s] x) in K; [|constructor; [exact P|constructor]]. apply Fst_iff in K. apply (fst_complete _ _ _ _ C' FI) in K. rewrite first_nonterm in K by exact T. exact K.
  - apply S3 in H0. apply Flw_iff in H0. apply (sf_follow g g' SF) in H0. apply H0.
  - apply S3 in H0. apply Flw_iff in H0. apply (sf_follow g g' SF) in H0. apply H0.
  - intros K. apply (sf_follow g g' SF) in K. apply Flw_iff in K. apply (flw_complete _ _ _ _ C' FI T K).
Qed.
Theorem C49_simplify_exact g m n g' t : complete g -> finalize m n g = Some (Accepted g' t) ->
  (forall s, In s (g_nterms g') <-> In s (g_nterms g) /\ exists before after, derives g [g_root g] (before ++ s :: after)) /\
  (forall l, derives g' [g_root g'] l <-> derives g [g_root g] l).
Proof.
  intros C H. destruct (finalize_inv _ _ _ _ _ C H) as (SF & _). split.
  - intros s. rewrite (sf_nterms _ _ SF). split; intros (A & B); (split; [exact A|]); [apply path_reached; exact B|apply reached_path; exact B].
  - intros l. rewrite (sf_root _ _ SF). symmetry. apply (sf_derives _ _ SF). apply sf_root_path.
Qed.

(** C50. *)
Lemma check_none g t l : check g t l = None -> forall s, In s l -> check_one g t s = None.
Proof.
  induction l as [|x l IH]; [intros _ s []|]. cbn [check]. destruct (check_one g t x) eqn:E; [discriminate|]. intros H s [<- | I]; [exact E|apply IH; assumption].
Qed.
Lemma find_nterm g s a b : complete g -> find g s = Some (PLook a b) -> In s (g_nterms g).
Proof. intros C F. apply (cp_nterm g C). exists (PLook a b). auto. Qed.
Lemma look_all g t a s : complete g -> sound g t -> exists l, look_aheads g t a s = Some l.
Proof.
  intros C (S1 & S2 & S3). unfold look_aheads.
  set (l := if is_nullable g t a then union (union [] (get_first g t a)) (t_follow t s) else union [] (get_first g t a)).
  assert (H : forallb (terminal g) l = true).
  { apply forallb_forall. intros x X. assert (TK : token g x).
    { unfold l in X. destruct (is_nullable g t a); repeat (rewrite union_In in X); cbn [In] in X.
      - destruct X as [[[] | X] | X].
        + apply (get_first_sound g t a x (conj S1 (conj S2 S3))) in X. apply Fst_iff in X. apply X.
        + apply S3 in X. apply Flw_iff in X. apply X.
      - destruct X as [[] | X]. apply (get_first_sound g t a x (conj S1 (conj S2 S3))) in X. apply Fst_iff in X. apply X. }
    destruct TK as (p & F & T & _). unfold terminal. rewrite F. exact T. }
  rewrite H. eauto.
Qed.
Lemma look_in g t a s x l : complete g -> final g t -> In s (g_nterms g) -> look_aheads g t a s = Some l ->
  Fst g a x \/ (Nul g a /\ Flw g s x) -> In x l.
Proof.
  intros C FI I H K. unfold look_aheads in H. destruct (forallb _ _) eqn:E; [|discriminate]. injection H as <-. destruct K as [K | (N & K)].
  - apply (fst_complete _ _ _ _ C FI) in K. destruct (is_nullable g t a); repeat rewrite union_In; auto.
  - apply (nul_complete _ _ C FI) in N. rewrite N. rewrite union_In. right. apply (flw_complete _ _ _ _ C FI); [|exact K]. apply nterm_terminal; assumption.
Qed.

(** In an accepted grammar, the tokens that can come next for the two alternatives of a look-ahead production differ (in the text that
    describes them), whatever precedes and follows; hence no token belongs to both. *)
Theorem C50_look_ahead_decides g m n g' t : complete g -> finalize m n g = Some (Accepted g' t) ->
  forall s a b x y, find g s = Some (PLook a b) -> next_token g s a x -> next_token g s b y -> dump_of g x <> dump_of g y.
Proof.
  intros C H s a b x y F NA NB. destruct (finalize_inv _ _ _ _ _ C H) as (SF & SO & FI & CH). pose proof (sf_complete _ _ SF) as C'.
  assert (RA : In [a] (rhss_of g s)) by (unfold rhss_of; rewrite F; left; reflexivity).
  assert (RB : In [b] (rhss_of g s)) by (unfold rhss_of; rewrite F; right; left; reflexivity).
  assert (P : path g (g_root g) s) by (destruct NA as (u & v & D & _); apply reached_path; exists u, v; exact D).
  assert (PX : path g (g_root g) x /\ path g (g_root g) y).
  { split; [destruct NA as (u & v & D & _ & w & D2)|destruct NB as (u & v & D & _ & w & D2)]; apply derives_path in D; apply Forall_app in D; destruct D as (_ & D);
    inversion D as [|? ? D3 D4]; subst; apply derives_paths in D2; [inversion D2; assumption| |inversion D2; assumption|];
    (constructor; [|exact D4]); solve [eapply path_snoc; [exact P|exact RA|left; reflexivity] | eapply path_snoc; [exact P|exact RB|left; reflexivity]]. }
  apply (sf_next g g' SF _ _ _ RA) in NA. apply (sf_next g g' SF _ _ _ RB) in NB.
  assert (F' : find g' s = Some (PLook a b)) by (rewrite (sf_find _ _ SF s P); exact F).
  assert (RR : rhss_of g' s = [[a]; [b]]) by (unfold rhss_of; rewrite F'; reflexivity).
  apply next_token_iff in NA; [|rewrite RR; left; reflexivity]. apply next_token_iff in NB; [|rewrite RR; right; left; reflexivity].
  pose proof (find_nterm _ _ _ _ C' F') as I. pose proof (check_none _ _ _ CH s I) as K. unfold check_one in K. rewrite F' in K. unfold look_ahead_sets in K.
  destruct (look_all g' t a s C' SO) as (v0 & E0). destruct (look_all g' t b s C' SO) as (v1 & E1). rewrite E0, E1 in K.
  pose proof (look_in _ _ _ _ _ _ C' FI I E0 NA) as I0. pose proof (look_in _ _ _ _ _ _ C' FI I E1 NB) as I1.
  assert (EX : existsb (fun z => if in_dec text_eq_dec z (map (dump_of g') v1) then true else false) (map (dump_of g') v0) = false).
  { destruct (existsb _ _); [|reflexivity]. destruct v0 as [|z v0]; [contradiction I0|]. discriminate. }
  intros EQ. assert (X : existsb (fun z => if in_dec text_eq_dec z (map (dump_of g') v1) then true else false) (map (dump_of g') v0) = true).
  { apply existsb_exists. exists (dump_of g' x). split; [apply in_map; exact I0|]. destruct (in_dec _ _ _) as [|NI]; [reflexivity|]. exfalso. apply NI.
    replace (dump_of g' x) with (dump_of g' y); [apply in_map; exact I1|]. destruct PX as (PX & PY). unfold dump_of in *. rewrite (sf_find _ _ SF x PX), (sf_find _ _ SF y PY). congruence. }
  congruence.
Qed.
Corollary C50_no_common_token g m n g' t : complete g -> finalize m n g = Some (Accepted g' t) ->
  forall s a b x, find g s = Some (PLook a b) -> next_token g s a x -> ~ next_token g s b x.
Proof. intros C H s a b x F A B. exact (C50_look_ahead_decides g m n g' t C H s a b x x F A B eq_refl). Qed.
(** Plain literals: for these the generated code selects by the literal's token id, and different text is a different literal. *)
Corollary C50_literals_differ g m n g' t : complete g -> finalize m n g = Some (Accepted g' t) ->
  forall s a b x y l l', find g s = Some (PLook a b) -> next_token g s a x -> next_token g s b y ->
    find g x = Some (PCtor l) -> find g y = Some (PCtor l') -> l <> l'.
Proof. intros C H s a b x y l l' F A B X Y E. apply (C50_look_ahead_decides g m n g' t C H s a b x y F A B). unfold dump_of. rewrite X, Y, E. reflexivity. Qed.

(** The converses. *)
Lemma look_out g t a s x l : sound g t -> reached g s -> look_aheads g t a s = Some l -> In x l -> next_token g s a x.
Proof.
  intros SO RE H I. unfold look_aheads in H. destruct (forallb _ _); [|discriminate].
  assert (K : Fst g a x \/ (Nul g a /\ Flw g s x)).
  { injection H as <-. destruct (is_nullable g t a) eqn:N; repeat (rewrite union_In in I); cbn [In] in I.
    - destruct I as [[[] | I] | I]; [left; apply (get_first_sound g t a x SO I)|right]. split; [apply (nullable_sound g t a SO N)|apply SO; exact I].
    - destruct I as [[] | I]. left. apply (get_first_sound g t a x SO I). }
  destruct K as [K | (N & K)].
  - destruct RE as (u & v & D). exists u, v. split; [exact D|]. apply Fst_iff in K. destruct K as (TK & more & D2). split; [exact TK|].
    exists (more ++ v). apply (derives_ctx g [] v) in D2. exact D2.
  - apply Flw_iff in K. destruct K as (TK & u & v & D). exists u, (x :: v). split; [exact D|]. split; [exact TK|]. exists v.
    apply Nul_iff in N. unfold can_be_empty in N. apply (derives_ctx g [] (x :: v)) in N. exact N.
Qed.
Lemma sf_next_back g g' : simplified g g' -> forall s a x, In [a] (rhss_of g s) -> next_token g' s a x -> next_token g s a x.
Proof.
  intros SF s a x IN (u & v & D & ST). exists u, v. rewrite (sf_root _ _ SF) in D. apply (sf_derives _ _ SF _ _ (sf_root_path g)) in D. split; [exact D|].
  pose proof (derives_path _ _ D) as F. apply Forall_app in F. destruct F as (_ & F). inversion F as [|? ? A B]; subst. apply (sf_start g g' SF) in ST; [exact ST|].
  constructor; [|exact B]. eapply path_snoc; [exact A|exact IN|left; reflexivity].
Qed.
Lemma next_path g s a x : In [a] (rhss_of g s) -> next_token g s a x -> path g (g_root g) x /\ token g x.
Proof.
  intros R (u & v & D & TK & w & D2). split; [|exact TK]. apply derives_path in D. apply Forall_app in D. destruct D as (_ & D). inversion D as [|? ? D3 D4]; subst.
  apply derives_paths in D2; [inversion D2; assumption|]. constructor; [|exact D4]. eapply path_snoc; [exact D3|exact R|left; reflexivity].
Qed.
(** Tokens with the same text are the same literal, the same skipped literal or of the same type. *)
Lemma dump_token g x y : token g x -> token g y -> (dump_of g x = dump_of g y <-> find g x = find g y).
Proof.
  intros (p & P & TP & NP) (q & Q & TQ & NQ). unfold dump_of. rewrite P, Q. split; [|intros E; injection E as ->; reflexivity].
  intros E. destruct p, q; try discriminate; try congruence; cbn [dump] in E; try discriminate; congruence.
Qed.
(** Exactly which grammars are accepted: for each look-ahead production that the root reaches, some token can come next, and no token
    that can come next for one alternative is the same (literal, skipped literal, type) as one for the other. An error says which of
    these is violated, and for which production. *)
Theorem C50_acceptance_exact g m n o : complete g -> finalize m n g = Some o ->
  match o with
  | Accepted _ _ => forall s a b before after, find g s = Some (PLook a b) -> derives g [g_root g] (before ++ s :: after) ->
      (exists x, next_token g s a x \/ next_token g s b x) /\
      (forall x y, next_token g s a x -> next_token g s b y -> find g x <> find g y)
  | Rejected (NoLookAheads s) => exists a b before after, find g s = Some (PLook a b) /\ derives g [g_root g] (before ++ s :: after) /\
      forall x, ~ next_token g s a x /\ ~ next_token g s b x
  | Rejected (Ambiguous s) => exists a b x y, find g s = Some (PLook a b) /\
      next_token g s a x /\ next_token g s b y /\ find g x = find g y
  | Rejected (NonTerminal _) => False
  end.
Proof.
  intros C H. destruct o as [g' t|e].
  - intros s a b u v F D. assert (RA : In [a] (rhss_of g s)) by (unfold rhss_of; rewrite F; left; reflexivity).
    assert (RB : In [b] (rhss_of g s)) by (unfold rhss_of; rewrite F; right; left; reflexivity). split.
    + destruct (finalize_inv _ _ _ _ _ C H) as (SF & SO & FI & CH). pose proof (sf_complete _ _ SF) as C'.
      assert (P : path g (g_root g) s) by (apply reached_path; exists u, v; exact D).
      assert (F' : find g' s = Some (PLook a b)) by (rewrite (sf_find _ _ SF s P); exact F).
      pose proof (find_nterm _ _ _ _ C' F') as I. pose proof (check_none _ _ _ CH s I) as K. unfold check_one in K. rewrite F' in K. unfold look_ahead_sets in K.
      destruct (look_all g' t a s C' SO) as (v0 & E0). destruct (look_all g' t b s C' SO) as (v1 & E1). rewrite E0, E1 in K.
      pose proof (sf_reached _ _ SF s I) as RE. destruct v0 as [|x v0].
      * destruct v1 as [|y v1]; [discriminate|]. exists y. right. apply (sf_next_back g g' SF _ _ _ RB). eapply look_out; eauto. left. reflexivity.
      * exists x. left. apply (sf_next_back g g' SF _ _ _ RA). eapply look_out; eauto. left. reflexivity.
    + intros x y NA NB E. apply (C50_look_ahead_decides g m n g' t C H s a b x y F NA NB).
      apply dump_token; [exact (proj2 (next_path _ _ _ _ RA NA))|exact (proj2 (next_path _ _ _ _ RB NB))|exact E].
  - unfold finalize in H. destruct (simplify m g) as [h|] eqn:E1; [|discriminate]. destruct (rounds n h no_tables) as [t|] eqn:E2; [|discriminate].
    destruct (check h t (g_nterms h)) as [e'|] eqn:E3; [|discriminate]. injection H as ->. pose proof (simplify_simplified _ _ _ C E1) as SF.
    destruct (rounds_result _ _ _ _ E2 (sf_reached _ _ SF) (no_tables_sound h)) as (SO & FI). pose proof (sf_complete _ _ SF) as C'.
    assert (K : exists s, In s (g_nterms h) /\ check_one h t s = Some e).
    { revert E3. generalize (g_nterms h). induction l as [|s l IH]; [discriminate|]. cbn [check]. destruct (check_one h t s) eqn:Q.
      - intros X. injection X as ->. exists s. split; [left; reflexivity|exact Q].
      - intros X. destruct (IH X) as (s' & A & B). exists s'. split; [right; exact A|exact B]. }
    destruct K as (s & I & K). pose proof (sf_reached _ _ SF s I) as RE. assert (P : path g (g_root g) s) by (apply (sf_nterms _ _ SF); exact I).
    unfold check_one in K. destruct (find h s) as [p|] eqn:F'; [|discriminate]. destruct p as [|a b| | | | | | | | |]; try discriminate.
    assert (F : find g s = Some (PLook a b)) by (rewrite <- (sf_find _ _ SF s P); exact F').
    assert (RA : In [a] (rhss_of g s)) by (unfold rhss_of; rewrite F; left; reflexivity).
    assert (RB : In [b] (rhss_of g s)) by (unfold rhss_of; rewrite F; right; left; reflexivity).
    assert (RR : rhss_of h s = [[a]; [b]]) by (unfold rhss_of; rewrite F'; reflexivity).
    unfold look_ahead_sets in K. destruct (look_all h t a s C' SO) as (v0 & L0). destruct (look_all h t b s C' SO) as (v1 & L1). rewrite L0, L1 in K.
    assert (N0 : v0 = [] -> v1 = [] -> e = NoLookAheads s -> exists a b before after, find g s = Some (PLook a b) /\ derives g [g_root g] (before ++ s :: after) /\
      forall x, ~ next_token g s a x /\ ~ next_token g s b x).
    { intros -> -> _. exists a, b. apply path_reached in P. destruct P as (u & v & D). exists u, v. split; [exact F|]. split; [exact D|]. intros x. split; intros NT.
      - apply (sf_next g h SF _ _ _ RA) in NT. apply next_token_iff in NT; [|rewrite RR; left; reflexivity]. exact (look_in _ _ _ _ _ _ C' FI I L0 NT).
      - apply (sf_next g h SF _ _ _ RB) in NT. apply next_token_iff in NT; [|rewrite RR; right; left; reflexivity]. exact (look_in _ _ _ _ _ _ C' FI I L1 NT). }
    assert (T0 : forallb (terminal h) (v0 ++ v1) = true).
    { unfold look_aheads in L0, L1. destruct (forallb (terminal h) (if is_nullable h t a then _ else _)) eqn:X0; [|discriminate].
      destruct (forallb (terminal h) (if is_nullable h t b then _ else _)) eqn:X1; [|discriminate]. injection L0 as <-. injection L1 as <-.
      rewrite forallb_app, X0, X1. reflexivity. }
    assert (A0 : existsb (fun x => if in_dec text_eq_dec x (map (dump_of h) v1) then true else false) (map (dump_of h) v0) = true ->
      exists a b x y, find g s = Some (PLook a b) /\ next_token g s a x /\ next_token g s b y /\ find g x = find g y).
    { intros X. apply existsb_exists in X. destruct X as (d & D0 & D1). destruct (in_dec _ _ _) as [D2|]; [|discriminate]. apply in_map_iff in D0, D2.
      destruct D0 as (x & X1 & X2). destruct D2 as (y & Y1 & Y2). exists a, b, x, y. split; [exact F|].
      assert (NA : next_token g s a x) by (apply (sf_next_back g h SF _ _ _ RA); eapply look_out; eauto).
      assert (NB : next_token g s b y) by (apply (sf_next_back g h SF _ _ _ RB); eapply look_out; eauto).
      split; [exact NA|]. split; [exact NB|]. destruct (next_path _ _ _ _ RA NA) as (PX & TX). destruct (next_path _ _ _ _ RB NB) as (PY & TY).
      apply dump_token; [exact TX|exact TY|]. unfold dump_of in *. rewrite <- (sf_find _ _ SF x PX), <- (sf_find _ _ SF y PY). congruence. }
    rewrite T0 in K. destruct v0 as [|x0 v0]; [destruct v1 as [|y1 v1]|].
    + injection K as <-. apply N0; reflexivity.
    + discriminate.
    + destruct (existsb _ _); [|discriminate]. injection K as <-. apply A0. reflexivity.
Qed.
Example C50_nothing_next : finalize 2 100 (mkG [(0, PLook 1 1); (1, PEpsilon)]%nat [0]%nat 0%nat) = Some (Rejected (NoLookAheads 0)).
Proof. reflexivity. Qed.

(** C51: the computation stops, with bounds on the numbers of rounds, and its outcome does not depend on them. *)
Theorem C51_finalize_stops g : complete g ->
  exists o, forall m n, (2 <= m)%nat -> (S (length (g_nterms g) * (1 + 2 * length (g_prods g))) <= n)%nat -> finalize m n g = Some o.
Proof.
  intros C. destruct (simplify_spec g 2 C ltac:(lia)) as [E | E].
  1, 2: match type of E with _ = Some ?h => assert (SF : simplified g h) by (apply (simplify_simplified g h 2 C E)); set (g1 := h) in * end;
    destruct (rounds_stop g1 (sf_complete _ _ SF) (S (length (g_nterms g) * (1 + 2 * length (g_prods g)))) no_tables (no_tables_bounded g1)) as (t & R);
    [destruct (sf_small _ _ SF) as (L1 & L2); pose proof (Nat.mul_le_mono _ _ _ _ L1 (proj1 (Nat.add_le_mono_l _ _ 1) (proj1 (Nat.mul_le_mono_pos_l _ _ 2 ltac:(lia)) L2))); lia|];
    eexists; intros m n M N; unfold finalize; rewrite (simplify_fuel _ _ _ M _ E); rewrite (rounds_fuel _ _ _ _ _ N R); reflexivity.
Qed.

(** The same for what can happen at run time, if the grammar has neither loops (other than while with look-ahead) nor blocks without else. *)
Definition no_repetition (g : grammar) : Prop := forall s, (forall b, find g s <> Some (PLoop b)) /\ (forall ps, find g s <> Some (PBlock ps [])).
Lemma run_derives_plain g a b : no_repetition g -> run_derives g a b -> derives g a b.
Proof.
  intros N. induction 1 as [l|l m n D IH ST]; [constructor|]. eapply der_step; [exact IH|]. destruct ST as [l' m' ST|x s bo k y F|x s ps y F].
  - exact ST.
  - exfalso. apply (proj1 (N s) bo F).
  - exfalso. apply (proj2 (N s) ps F).
Qed.
Theorem C50_run_time g m n g' t : complete g -> no_repetition g -> finalize m n g = Some (Accepted g' t) ->
  forall s a b x y, find g s = Some (PLook a b) -> run_next_token g s a x -> run_next_token g s b y -> dump_of g x <> dump_of g y.
Proof.
  intros C N H s a b x y F (TX & u & v & w & D1 & D2) (TY & u' & v' & w' & D3 & D4). apply (C50_look_ahead_decides g m n g' t C H s a b x y F).
  - exists u, v. split; [apply run_derives_plain; assumption|]. split; [exact TX|]. exists w. apply run_derives_plain; assumption.
  - exists u', v'. split; [apply run_derives_plain; assumption|]. split; [exact TY|]. exists w'. apply run_derives_plain; assumption.
Qed.

(** Deciding [complete] for concrete grammars. *)
Fixpoint nodup_b (l : list sym) : bool := match l with [] => true | x :: l' => negb (mem x l') && nodup_b l' end.
Lemma nodup_b_ok l : nodup_b l = true -> NoDup l.
Proof.
  induction l as [|x l IH]; intros H; [constructor|]. cbn [nodup_b] in H. apply andb_true_iff in H. destruct H as (A & B). apply negb_true_iff, mem_false in A.
  constructor; [exact A|apply IH; exact B].
Qed.
Definition complete_b (g : grammar) : bool :=
  nodup_b (map fst (g_prods g)) &&
  nodup_b (g_nterms g) &&
  forallb (fun s => match find g s with Some p => negb (is_terminal p) | None => false end) (g_nterms g) &&
  forallb (fun e => is_terminal (snd e) || mem (fst e) (g_nterms g)) (g_prods g) &&
  forallb (fun e => forallb (forallb (fun x => match find g x with Some _ => true | None => false end)) (rhss (snd e))) (g_prods g) &&
  match find g (g_root g) with Some _ => true | None => false end.
Lemma find_in g s p : find g s = Some p -> In (s, p) (g_prods g).
Proof.
  unfold find. destruct (List.find _ _) as [[k q]|] eqn:E; [|discriminate]. intros H. injection H as <-. apply find_some in E. destruct E as (I & E).
  cbn [fst] in E. apply Nat.eqb_eq in E. subst. exact I.
Qed.
Lemma complete_b_ok g : complete_b g = true -> complete g.
Proof.
  unfold complete_b. rewrite !andb_true_iff. intros (((((A & B) & D) & E) & F) & G).
  constructor.
  - apply nodup_b_ok. exact A.
  - apply nodup_b_ok. exact B.
  - intros s. rewrite forallb_forall in D, E. split.
    + intros I. specialize (D s I). destruct (find g s) as [p|]; [|discriminate]. exists p. split; [reflexivity|]. apply negb_true_iff. exact D.
    + intros (p & FD & T). specialize (E (s, p) (find_in _ _ _ FD)). cbn [fst snd] in E. change (leaf p) with (is_terminal p) in T. rewrite T in E. apply mem_In. exact E.
  - intros s rhs x R I. rewrite forallb_forall in F. apply alternative_iff in R. unfold rhss_of in R. destruct (find g s) as [p|] eqn:FD; [|destruct R].
    specialize (F _ (find_in _ _ _ FD)). cbn [snd] in F. rewrite forallb_forall in F. specialize (F _ R). rewrite forallb_forall in F. specialize (F _ I).
    destruct (find g x); [discriminate|discriminate].
  - destruct (find g (g_root g)); [discriminate|discriminate].
Qed.

(** Non-vacuity: list of "1" up to "2", recursive; production 6 is not used.
    root = [many; "2"]; many = item | epsilon; item = ["1"; many]. *)
Definition ex_list : grammar :=
  mkG [(0, PSeq [1; 5]); (1, PLook 2 4); (2, PSeq [3; 1]); (3, PCtor 100); (4, PEpsilon); (5, PCtor 101); (6, PSeq [3; 3])]%nat [0; 1; 2; 6]%nat 0%nat.
Example ex_list_complete : complete ex_list.
Proof. apply complete_b_ok. reflexivity. Qed.
Example ex_list_accepted : exists g' t, finalize 2 100 ex_list = Some (Accepted g' t) /\ g_nterms g' = [0; 1; 2]%nat /\
  map (t_null t) [0; 1; 2]%nat = [false; true; false] /\ map (t_first t) [0; 1; 2]%nat = [[5; 3]; [3]; [3]]%nat /\ map (t_follow t) [0; 1; 2]%nat = [[]; [5]; [5]]%nat.
Proof. destruct (finalize 2 100 ex_list) as [[g' t|]|] eqn:E; vm_compute in E; [|discriminate|discriminate]. exists g', t. injection E as <- <-. repeat split; reflexivity. Qed.
Lemma one_step g l l' : step g l l' -> derives g l l'.
Proof. intros H. eapply der_step; [constructor|exact H]. Qed.
Example ex_list_next : next_token ex_list 1 2 3 /\ next_token ex_list 1 4 5.
Proof.
  split.
  - exists [], [5]%nat. split; [apply one_step; apply (step_rhs ex_list [] 0%nat [1; 5]%nat []); left; reflexivity|].
    split; [exists (PCtor 100); repeat split; discriminate|]. exists [1; 5]%nat. apply one_step. apply (step_rhs ex_list [] 2%nat [3; 1]%nat [5]%nat). left. reflexivity.
  - exists [], [5]%nat. split; [apply one_step; apply (step_rhs ex_list [] 0%nat [1; 5]%nat []); left; reflexivity|].
    split; [exists (PCtor 101); repeat split; discriminate|]. exists []. apply one_step. apply (step_eps ex_list [] 4%nat [5]%nat). reflexivity.
Qed.
Example ex_list_no_repetition : no_repetition ex_list.
Proof. intros s. split; intros b; unfold find, ex_list; cbn [List.find g_prods]; do 7 (destruct s as [|s]; [cbn; discriminate|]); cbn; discriminate. Qed.
(** The same list followed by "1" is ambiguous, and rejected. *)
Example ex_ambiguous : finalize 2 100 (mkG [(0, PSeq [1; 3]); (1, PLook 2 4); (2, PSeq [3; 1]); (3, PCtor 100); (4, PEpsilon)]%nat [0; 1; 2]%nat 0%nat) = Some (Rejected (Ambiguous 1)).
Proof. reflexivity. Qed.

(** What the checks do not find.  A literal and the same literal as skipped field (skip.h:44: same token id, skip.h:57-59: other text). *)
Theorem C50_skip_refuted : ~ (forall g m n g' t, complete g -> finalize m n g = Some (Accepted g' t) ->
  forall s a b x y p q l, find g s = Some (PLook a b) -> next_token g s a x -> next_token g s b y ->
    find g x = Some p -> find g y = Some q -> token_id p = Some l -> token_id q <> Some l).
Proof.
  intros H. set (g := mkG [(0, PLook 1 2); (1, PCtor 7); (2, PSkipCtor 3 7)]%nat [0]%nat 0%nat).
  assert (C : complete g) by (apply complete_b_ok; reflexivity).
  destruct (finalize 2 100 g) as [[g' t|]|] eqn:E; [|vm_compute in E; discriminate|vm_compute in E; discriminate].
  apply (H g 2%nat 100%nat g' t C E 0%nat 1%nat 2%nat 1%nat 2%nat (PCtor 7) (PSkipCtor 3 7) 7%nat); try reflexivity.
  - exists [], []. split; [constructor|]. split; [exists (PCtor 7); repeat split; discriminate|]. exists []. constructor.
  - exists [], []. split; [constructor|]. split; [exists (PSkipCtor 3 7); repeat split; discriminate|]. exists []. constructor.
Qed.
(** At the end of the input both alternatives may be possible. *)
Theorem C50_end_of_input_refuted : ~ (forall g m n g' t, complete g -> finalize m n g = Some (Accepted g' t) ->
  forall s a b before, find g s = Some (PLook a b) -> derives g [g_root g] (before ++ [s]) -> ~ (can_be_empty g a /\ can_be_empty g b)).
Proof.
  intros H. set (g := mkG [(0, PLook 1 2); (1, PLook 3 2); (2, PEpsilon); (3, PCtor 7)]%nat [0; 1]%nat 0%nat).
  assert (C : complete g) by (apply complete_b_ok; reflexivity).
  destruct (finalize 2 100 g) as [[g' t|]|] eqn:E; [|vm_compute in E; discriminate|vm_compute in E; discriminate].
  apply (H g 2%nat 100%nat g' t C E 0%nat 1%nat 2%nat []); [reflexivity|constructor|]. split.
  - eapply der_step; [apply one_step; apply (step_rhs g [] 1%nat [2]%nat []); right; left; reflexivity|]. apply (step_eps g [] 2%nat []). reflexivity.
  - apply one_step. apply (step_eps g [] 2%nat []). reflexivity.
Qed.
(** A counted or for-each loop: the token that starts its body may follow its body.  Here the body is "7" followed by any number of "7". *)
Theorem C50_loop_refuted : ~ (forall g m n g' t, complete g -> finalize m n g = Some (Accepted g' t) ->
  forall s a b x, find g s = Some (PLook a b) -> run_next_token g s a x -> ~ run_next_token g s b x).
Proof.
  intros H. set (g := mkG [(0, PLoop 1); (1, PSeq [2; 3]); (2, PCtor 7); (3, PLook 1 4); (4, PEpsilon)]%nat [0; 1; 3]%nat 0%nat).
  assert (C : complete g) by (apply complete_b_ok; reflexivity).
  destruct (finalize 2 100 g) as [[g' t|]|] eqn:E; [|vm_compute in E; discriminate|vm_compute in E; discriminate].
  assert (T : token g 2%nat) by (exists (PCtor 7); repeat split; discriminate).
  assert (D : run_derives g [0]%nat ([2] ++ 3 :: [1])%nat).
  { eapply rder_step; [eapply rder_step; [constructor|apply (rs_loop g [] 0%nat 1%nat 2 []); reflexivity]|]. apply rs_step. apply (step_rhs g [] 1%nat [2; 3]%nat [1]%nat). left. reflexivity. }
  apply (H g 2%nat 100%nat g' t C E 3%nat 1%nat 4%nat 2%nat); [reflexivity| |].
  - split; [exact T|]. exists [2]%nat, [1]%nat, [3; 1]%nat. split; [exact D|]. eapply rder_step; [constructor|]. apply rs_step. apply (step_rhs g [] 1%nat [2; 3]%nat [1]%nat). left. reflexivity.
  - split; [exact T|]. exists [2]%nat, [1]%nat, [3]%nat. split; [exact D|].
    eapply rder_step; [eapply rder_step; [constructor|apply rs_step; apply (step_eps g [] 4%nat [1]%nat); reflexivity]|].
    apply rs_step. apply (step_rhs g [] 1%nat [2; 3]%nat []). left. reflexivity.
Qed.
(** A conditional block without else may be left out: then what follows it comes next.  Here: optional "7", block with "8", "7". *)
Theorem C50_block_refuted : ~ (forall g m n g' t, complete g -> (forall s b, find g s <> Some (PLoop b)) -> finalize m n g = Some (Accepted g' t) ->
  forall s a b x, find g s = Some (PLook a b) -> run_next_token g s a x -> ~ run_next_token g s b x).
Proof.
  intros H. set (g := mkG [(0, PSeq [1; 4; 3]); (1, PLook 3 2); (2, PEpsilon); (3, PCtor 7); (4, PBlock [5] []); (5, PCtor 8)]%nat [0; 1; 4]%nat 0%nat).
  assert (C : complete g) by (apply complete_b_ok; reflexivity).
  assert (NL : forall s b, find g s <> Some (PLoop b)) by (intros s b; do 6 (destruct s as [|s]; [discriminate|]); discriminate).
  destruct (finalize 2 100 g) as [[g' t|]|] eqn:E; [|vm_compute in E; discriminate|vm_compute in E; discriminate].
  assert (T : token g 3%nat) by (exists (PCtor 7); repeat split; discriminate).
  assert (D : run_derives g [0]%nat ([] ++ 1 :: [4; 3])%nat).
  { eapply rder_step; [constructor|]. apply rs_step. apply (step_rhs g [] 0%nat [1; 4; 3]%nat []). left. reflexivity. }
  apply (H g 2%nat 100%nat g' t C NL E 1%nat 3%nat 2%nat 3%nat); [reflexivity| |].
  - split; [exact T|]. exists [], [4; 3]%nat, [4; 3]%nat. split; [exact D|constructor].
  - split; [exact T|]. exists [], [4; 3]%nat, []. split; [exact D|].
    eapply rder_step; [eapply rder_step; [constructor|apply rs_step; apply (step_eps g [] 2%nat [4; 3]%nat); reflexivity]|].
    apply (rs_block g [] 4%nat [5]%nat [3]%nat). reflexivity.
Qed.
