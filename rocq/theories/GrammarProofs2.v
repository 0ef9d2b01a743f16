(** The table computation: sound, complete when nothing changes anymore, and it gets there. *)
From Verif Require Import Base GrammarModel GrammarSpec GrammarProofs.

Lemma mem_In s l : mem s l = true <-> In s l.
Proof.
  unfold mem. rewrite existsb_exists. split.
  - intros (x & I & E). apply Nat.eqb_eq in E. subst. exact I.
  - intros I. exists s. split; [exact I|apply Nat.eqb_refl].
Qed.
Lemma mem_false s l : mem s l = false <-> ~ In s l.
Proof. rewrite <- mem_In. destruct (mem s l); split; intros H; congruence || (exfalso; apply H; reflexivity) || discriminate. Qed.
Lemma union_In x a b : In x (union a b) <-> In x a \/ In x b.
Proof.
  unfold union. rewrite in_app_iff, filter_In, nodup_In. split; [tauto|]. intros [H | H]; [tauto|].
  destruct (mem x a) eqn:E; [left; apply mem_In; exact E|right; auto].
Qed.
Lemma union_NoDup a b : NoDup a -> NoDup (union a b).
Proof.
  intros N. unfold union. induction a as [|x a IH]; cbn [app].
  - apply NoDup_filter, NoDup_nodup.
  - inversion N as [|? ? N1 N2]; subst.
    assert (G : forall l, NoDup l -> NoDup ((x :: a) ++ filter (fun y => negb (mem y (x :: a))) l)).
    { intros l NL. cbn [app]. constructor.
      - rewrite in_app_iff, filter_In. intros [H | (_ & H)]; [contradiction|]. cbn [mem existsb] in H. rewrite Nat.eqb_refl in H. discriminate.
      - clear IH. assert (D : forall y, In y a -> ~ In y (filter (fun y => negb (mem y (x :: a))) l)).
        { intros y Y H. apply filter_In in H. destruct H as (_ & H). apply negb_true_iff, mem_false in H. apply H. right. exact Y. }
        assert (NF : NoDup (filter (fun y => negb (mem y (x :: a))) l)) by (apply NoDup_filter; exact NL).
        revert D NF. generalize (filter (fun y => negb (mem y (x :: a))) l) as r. clear - N2. intros r D NF.
        induction a as [|y a IHa]; cbn [app]; [exact NF|]. inversion N2; subst. constructor.
        + rewrite in_app_iff. intros [H | H]; [contradiction|]. apply (D y); [left; reflexivity|exact H].
        + apply IHa; [assumption|]. intros z Z. apply D. right. exact Z. }
    apply G, NoDup_nodup.
Qed.
Lemma union_length a b : length (union a b) = length a -> incl b a.
Proof.
  unfold union. rewrite app_length. intros L x I. destruct (mem x a) eqn:E; [apply mem_In; exact E|]. exfalso.
  assert (F : In x (filter (fun y => negb (mem y a)) (nodup Nat.eq_dec b))).
  { apply filter_In. split; [apply nodup_In; exact I|rewrite E; reflexivity]. }
  destruct (filter (fun y => negb (mem y a)) (nodup Nat.eq_dec b)); [destruct F|cbn [length] in L; lia].
Qed.
Lemma union_longer a b : length (union a b) <> length a -> (length a < length (union a b))%nat.
Proof. unfold union. rewrite app_length. lia. Qed.

Definition state : Type := tables * bool.
Section G.
Context (g : grammar).

(** ** What a round does, step by step *)
Inductive elem : state -> state -> Prop :=
| el_skip st : elem st st
| el_null t c a rhs : In a (g_nterms g) -> In rhs (rhss_of g a) -> all_nullable g t rhs = true -> t_null t a = false ->
    elem (t, c) (mkT (put (t_null t) a true) (t_first t) (t_follow t), true)
| el_first st a rhs pre x post : In a (g_nterms g) -> In rhs (rhss_of g a) -> rhs = pre ++ x :: post -> all_nullable g (fst st) pre = true ->
    elem st (add_first a (get_first g (fst st) x) st)
| el_up st a rhs pre x post : In a (g_nterms g) -> In rhs (rhss_of g a) -> rhs = pre ++ x :: post -> terminal g x = false ->
    all_nullable g (fst st) post = true -> elem st (add_follow x (t_follow (fst st) a) st)
| el_next st a rhs pre x mid y post : In a (g_nterms g) -> In rhs (rhss_of g a) -> rhs = pre ++ x :: mid ++ y :: post -> terminal g x = false ->
    all_nullable g (fst st) mid = true -> elem st (add_follow x (get_first g (fst st) y) st).
Inductive run : state -> state -> Prop :=
| run_nil st : run st st
| run_cons a b c : elem a b -> run b c -> run a c.
Lemma run_trans a b c : run a b -> run b c -> run a c.
Proof. induction 1; auto. intros. econstructor; eauto. Qed.
Lemma run_one a b : elem a b -> run a b.
Proof. intros. eapply run_cons; [eassumption|constructor]. Qed.

Lemma scan_follow_run a rhs pre x : In a (g_nterms g) -> In rhs (rhss_of g a) -> terminal g x = false ->
  forall rest mid st, rhs = pre ++ x :: mid ++ rest -> run st (scan_follow g x mid rest st).
Proof.
  intros A R T. induction rest as [|y rest IH]; intros mid st E; cbn [scan_follow]; [constructor|].
  eapply run_trans; [|apply IH; rewrite <- app_assoc; exact E]. apply run_one.
  destruct (all_nullable g (fst st) mid) eqn:N; [|constructor]. eapply el_next; eauto.
Qed.
Lemma scan_run a rhs : In a (g_nterms g) -> In rhs (rhss_of g a) -> forall rest pre st, rhs = pre ++ rest -> run st (scan g a pre rest st).
Proof.
  intros A R. induction rest as [|x next IH]; intros pre st E; cbn [scan]; [constructor|]. cbv zeta.
  eapply run_trans; [|apply IH; rewrite <- app_assoc; exact E].
  eapply run_trans.
  { apply run_one. instantiate (1 := if all_nullable g (fst st) pre then add_first a (get_first g (fst st) x) st else st).
    destruct (all_nullable g (fst st) pre) eqn:N; [|constructor]. eapply el_first; eauto. }
  set (st1 := if all_nullable g (fst st) pre then _ else _).
  destruct (terminal g x) eqn:T; [constructor|].
  eapply run_trans; [|eapply scan_follow_run; eauto]. apply run_one.
  destruct (all_nullable g (fst st1) next) eqn:N; [|constructor]. eapply el_up; eauto.
Qed.
Lemma process_run a rhs st : In a (g_nterms g) -> In rhs (rhss_of g a) -> run st (process_rhs g a rhs st).
Proof.
  intros A R. unfold process_rhs. cbv zeta. eapply run_trans; [|apply (scan_run a rhs A R); reflexivity]. apply run_one.
  destruct (all_nullable g (fst st) rhs && negb (t_null (fst st) a)) eqn:E; [|constructor].
  apply andb_true_iff in E. destruct E as (E1 & E2). apply negb_true_iff in E2. destruct st as [t c]. eapply el_null; eauto.
Qed.
Lemma round_run t : run (t, false) (round g t).
Proof.
  unfold round. assert (H : forall l st, (forall a, In a l -> In a (g_nterms g)) ->
    run st (fold_left (fun st a => fold_left (fun st rhs => process_rhs g a rhs st) (rhss_of g a) st) l st)).
  { induction l as [|a l IH]; intros st I; cbn [fold_left]; [constructor|]. eapply run_trans; [|apply IH; intros; apply I; right; assumption].
    assert (A : In a (g_nterms g)) by (apply I; left; reflexivity).
    assert (K : forall rs st, (forall r, In r rs -> In r (rhss_of g a)) -> run st (fold_left (fun st rhs => process_rhs g a rhs st) rs st)).
    { induction rs as [|r rs IHr]; intros st' J; cbn [fold_left]; [constructor|].
      eapply run_trans; [apply process_run; [exact A|apply J; left; reflexivity]|apply IHr; intros; apply J; right; assumption]. }
    apply K. auto. }
  apply H. auto.
Qed.

(** ** Soundness *)
Definition sound (t : tables) : Prop :=
  (forall s, t_null t s = true -> Nul g s) /\ (forall s x, In x (t_first t s) -> Fst g s x) /\ (forall s x, In x (t_follow t s) -> Flw g s x).
Lemma nullable_sound t s : sound t -> is_nullable g t s = true -> Nul g s.
Proof.
  intros (A & _ & _). unfold is_nullable, terminal. destruct (find g s) as [p|] eqn:F; [|apply A].
  destruct p; cbn [is_terminal]; try apply A; try discriminate. intros _. apply nul_eps. exact F.
Qed.
Lemma all_nullable_sound t l : sound t -> all_nullable g t l = true -> NulL g l.
Proof.
  intros S. unfold all_nullable. rewrite forallb_forall. intros H. apply NulL_Forall. apply Forall_forall. intros x X. eapply nullable_sound; eauto.
Qed.
Lemma get_first_sound t s x : sound t -> In x (get_first g t s) -> Fst g s x.
Proof.
  intros (_ & A & _). unfold get_first, terminal. destruct (find g s) as [p|] eqn:F; [|apply A].
  destruct p; cbn [is_terminal]; try apply A; try (intros [<- | []]; apply fst_tok; eexists; split; [exact F|split; [reflexivity|discriminate]]). intros [].
Qed.
Lemma put_same {A} (f : sym -> A) k v : put f k v k = v.
Proof. unfold put. rewrite Nat.eqb_refl. reflexivity. Qed.
Lemma put_cases {A} (f : sym -> A) k v x : (x = k /\ put f k v x = v) \/ (x <> k /\ put f k v x = f x).
Proof. unfold put. destruct (Nat.eqb_spec x k); [left|right]; auto. Qed.
Lemma add_first_sound dst src st : sound (fst st) -> (forall x, In x src -> Fst g dst x) -> sound (fst (add_first dst src st)).
Proof.
  intros (A & B & C) H. unfold add_first, add. destruct (Nat.eqb _ _); cbn [fst]; [repeat split; assumption|].
  split; [exact A|]. split; [|exact C]. cbn [t_first]. intros s x. destruct (put_cases (t_first (fst st)) dst (union (t_first (fst st) dst) src) s) as [(-> & ->) | (_ & ->)].
  - rewrite union_In. intros [I | I]; auto.
  - apply B.
Qed.
Lemma add_follow_sound dst src st : sound (fst st) -> (forall x, In x src -> Flw g dst x) -> sound (fst (add_follow dst src st)).
Proof.
  intros (A & B & C) H. unfold add_follow, add. destruct (Nat.eqb _ _); cbn [fst]; [repeat split; assumption|].
  split; [exact A|]. split; [exact B|]. cbn [t_follow]. intros s x. destruct (put_cases (t_follow (fst st)) dst (union (t_follow (fst st) dst) src) s) as [(-> & ->) | (_ & ->)].
  - rewrite union_In. intros [I | I]; auto.
  - apply C.
Qed.
Lemma elem_sound st st' : (forall a, In a (g_nterms g) -> reached g a) -> elem st st' -> sound (fst st) -> sound (fst st').
Proof.
  intros RE H S. destruct H as [st|t c a rhs A R N F|st a rhs pre x post A R E N|st a rhs pre x post A R E T N|st a rhs pre x mid y post A R E T N].
  - exact S.
  - cbn [fst] in *. pose proof S as (S1 & S2 & S3). split; [|split; [exact S2|exact S3]]. cbn [t_null]. intros s.
    destruct (put_cases (t_null t) a true s) as [(-> & ->) | (_ & ->)]; [|apply S1]. intros _. eapply nul_rhs; [exact R|]. eapply all_nullable_sound; eauto.
  - apply add_first_sound; [exact S|]. intros z Z. eapply fst_rhs; [exact R|exact E|eapply all_nullable_sound; eauto|eapply get_first_sound; eauto].
  - apply add_follow_sound; [exact S|]. intros z Z. eapply flw_up; [exact R|exact E|eapply all_nullable_sound; eauto|]. apply S. exact Z.
  - apply add_follow_sound; [exact S|]. intros z Z. eapply flw_fst; [apply RE; exact A|exact R|exact E|].
    exists mid, y, post. split; [reflexivity|]. split; [eapply all_nullable_sound; eauto|eapply get_first_sound; eauto].
Qed.
Lemma run_sound st st' : (forall a, In a (g_nterms g) -> reached g a) -> run st st' -> sound (fst st) -> sound (fst st').
Proof. intros RE. induction 1; auto. intros S. apply IHrun. eapply elem_sound; eauto. Qed.

(** ** Nothing changes anymore *)
Definition quiet (f : state -> state) (P : tables -> Prop) : Prop := forall st t, f st = (t, false) -> st = (t, false) /\ P t.
Lemma add_quiet tbl dst src c tbl' : add tbl dst src c = (tbl', false) -> tbl' = tbl /\ c = false /\ incl src (tbl dst).
Proof.
  unfold add. destruct (Nat.eqb_spec (length (union (tbl dst) src)) (length (tbl dst))) as [E|E]; intros H; [injection H as <- <-|discriminate H].
  split; [reflexivity|]. split; [reflexivity|]. apply union_length. exact E.
Qed.
Lemma add_first_quiet dst src st t : add_first dst src st = (t, false) -> st = (t, false) /\ incl src (t_first t dst).
Proof.
  destruct st as [[tn tf tw] c]. unfold add_first. cbn [fst snd t_first t_null t_follow]. destruct (add tf dst src c) as [f c'] eqn:E.
  intros H. injection H as <- ->. apply add_quiet in E. destruct E as (-> & -> & I). split; [reflexivity|exact I].
Qed.
Lemma add_follow_quiet dst src st t : add_follow dst src st = (t, false) -> st = (t, false) /\ incl src (t_follow t dst).
Proof.
  destruct st as [[tn tf tw] c]. unfold add_follow. cbn [fst snd t_first t_null t_follow]. destruct (add tw dst src c) as [f c'] eqn:E.
  intros H. injection H as <- ->. apply add_quiet in E. destruct E as (-> & -> & I). split; [reflexivity|exact I].
Qed.
Lemma scan_follow_quiet x : forall rest mid st t, scan_follow g x mid rest st = (t, false) ->
  st = (t, false) /\ forall m y r, rest = m ++ y :: r -> all_nullable g t (mid ++ m) = true -> incl (get_first g t y) (t_follow t x).
Proof.
  induction rest as [|y rest IH]; intros mid st t H; cbn [scan_follow] in H.
  - split; [exact H|]. intros m y r E. destruct m; discriminate.
  - apply IH in H. destruct H as (H & K). destruct (all_nullable g (fst st) mid) eqn:N.
    + apply add_follow_quiet in H. destruct H as (-> & I). cbn [fst] in *. split; [reflexivity|].
      intros m z r E A. destruct m as [|m0 m]; cbn [app] in E; injection E as -> E; [subst; exact I|].
      eapply K; [exact E|]. rewrite <- app_assoc. exact A.
    + subst st. cbn [fst] in N. split; [reflexivity|]. intros m z r E A. destruct m as [|m0 m]; cbn [app] in E; injection E as -> E.
      * rewrite app_nil_r in A. congruence.
      * eapply K; [exact E|]. rewrite <- app_assoc. exact A.
Qed.
Record settled (t : tables) (a : sym) (pre rest : list sym) : Prop := mkSettled {
  se_first : forall m x r, rest = m ++ x :: r -> all_nullable g t (pre ++ m) = true -> incl (get_first g t x) (t_first t a);
  se_up : forall m x r, rest = m ++ x :: r -> terminal g x = false -> all_nullable g t r = true -> incl (t_follow t a) (t_follow t x);
  se_next : forall m x k y r, rest = m ++ x :: k ++ y :: r -> terminal g x = false -> all_nullable g t k = true -> incl (get_first g t y) (t_follow t x) }.
Lemma scan_quiet a : forall rest pre st t, scan g a pre rest st = (t, false) -> st = (t, false) /\ settled t a pre rest.
Proof.
  induction rest as [|x next IH]; intros pre st t H; cbn [scan] in H.
  - split; [exact H|]. constructor; intros m; intros; destruct m; discriminate.
  - cbv zeta in H. apply IH in H. destruct H as (H & [K1 K2 K3]).
    set (st1 := if all_nullable g (fst st) pre then add_first a (get_first g (fst st) x) st else st) in *.
    assert (H1 : st1 = (t, false) /\ (terminal g x = false -> (all_nullable g t next = true -> incl (t_follow t a) (t_follow t x)) /\
       (forall k y r, next = k ++ y :: r -> all_nullable g t k = true -> incl (get_first g t y) (t_follow t x)))).
    { destruct (terminal g x) eqn:T; [split; [exact H|discriminate]|].
      apply scan_follow_quiet in H. destruct H as (H & L). cbn [app] in L.
      destruct (all_nullable g (fst st1) next) eqn:N.
      - apply add_follow_quiet in H. destruct H as (H & I). rewrite H in *. cbn [fst] in *. split; [reflexivity|]. intros _. split; [intros _; exact I|].
        intros k y r E A. eapply L; eauto.
      - rewrite H in *. cbn [fst] in *. split; [reflexivity|]. intros _. split; [congruence|]. intros k y r E A. eapply L; eauto. }
    clear H. destruct H1 as (H1 & H2). unfold st1 in H1. clear st1.
    assert (H3 : st = (t, false) /\ (all_nullable g t pre = true -> incl (get_first g t x) (t_first t a))).
    { destruct (all_nullable g (fst st) pre) eqn:N.
      - apply add_first_quiet in H1. destruct H1 as (-> & I). split; [reflexivity|]. intros _. exact I.
      - subst st. cbn [fst] in N. split; [reflexivity|congruence]. }
    destruct H3 as (-> & H3). split; [reflexivity|]. constructor.
    + intros m z r E A. destruct m as [|m0 m]; cbn [app] in E; injection E as -> E; [rewrite app_nil_r in A; subst; auto|].
      eapply K1; [exact E|]. rewrite <- app_assoc. exact A.
    + intros m z r E T A. destruct m as [|m0 m]; cbn [app] in E; injection E as -> E; [subst; apply (proj1 (H2 T)); exact A|].
      eapply K2; eauto.
    + intros m z k y r E T A. destruct m as [|m0 m]; cbn [app] in E; injection E as -> E; [eapply (proj2 (H2 T)); eauto|].
      eapply K3; eauto.
Qed.
Definition rhs_closed (t : tables) (a : sym) (rhs : list sym) : Prop :=
  (all_nullable g t rhs = true -> t_null t a = true) /\ settled t a [] rhs.
Lemma process_quiet a rhs st t : process_rhs g a rhs st = (t, false) -> st = (t, false) /\ rhs_closed t a rhs.
Proof.
  unfold process_rhs. cbv zeta. intros H. apply scan_quiet in H. destruct H as (H & K).
  destruct (all_nullable g (fst st) rhs && negb (t_null (fst st) a)) eqn:E; [discriminate|]. subst st. cbn [fst] in E.
  split; [reflexivity|]. split; [|exact K]. intros N. rewrite N in E. cbn [andb] in E. apply negb_false_iff in E. exact E.
Qed.
Lemma round_quiet t t' : round g t = (t', false) -> t' = t /\ forall a rhs, In a (g_nterms g) -> In rhs (rhss_of g a) -> rhs_closed t a rhs.
Proof.
  unfold round.
  assert (H : forall l st u, fold_left (fun st a => fold_left (fun st rhs => process_rhs g a rhs st) (rhss_of g a) st) l st = (u, false) ->
    st = (u, false) /\ forall a rhs, In a l -> In rhs (rhss_of g a) -> rhs_closed u a rhs).
  { induction l as [|a l IH]; intros st u H; cbn [fold_left] in H; [split; [exact H|intros ? ? []]|].
    apply IH in H. destruct H as (H & L).
    assert (K : forall rs st, fold_left (fun st rhs => process_rhs g a rhs st) rs st = (u, false) -> st = (u, false) /\ forall rhs, In rhs rs -> rhs_closed u a rhs).
    { induction rs as [|r rs IHr]; intros st' H'; cbn [fold_left] in H'; [split; [exact H'|intros ? []]|].
      apply IHr in H'. destruct H' as (H' & L'). apply process_quiet in H'. destruct H' as (-> & C). split; [reflexivity|].
      intros rhs [<- | I]; [exact C|apply L'; exact I]. }
    apply K in H. destruct H as (-> & C). split; [reflexivity|]. intros b rhs [<- | I] R; [apply C; exact R|eapply L; eauto]. }
  intros E. apply H in E. destruct E as (E & L). injection E as <-. split; [reflexivity|exact L].
Qed.

(** ** Completeness *)
Definition final (t : tables) : Prop := forall a rhs, In a (g_nterms g) -> In rhs (rhss_of g a) -> rhs_closed t a rhs.
Lemma lhs_nterm a rhs : complete g -> In rhs (rhss_of g a) -> In a (g_nterms g) /\ terminal g a = false.
Proof.
  intros C I. unfold rhss_of, terminal in *. destruct (find g a) as [p|] eqn:F; [|destruct I].
  assert (T : is_terminal p = false) by (destruct p; cbn in *; try reflexivity; destruct I). split; [|exact T].
  apply (cp_nterm g C). exists p. auto.
Qed.
Lemma nullable_nonterm t a : terminal g a = false -> is_nullable g t a = t_null t a.
Proof.
  unfold is_nullable. intros T. rewrite T. destruct (find g a) as [p|] eqn:F; [|reflexivity]. unfold terminal in T. rewrite F in T. destruct p; try reflexivity. discriminate.
Qed.
Lemma first_nonterm t a : terminal g a = false -> get_first g t a = t_first t a.
Proof.
  unfold get_first. intros T. rewrite T. destruct (find g a) as [p|] eqn:F; [|reflexivity]. unfold terminal in T. rewrite F in T. destruct p; try reflexivity. discriminate.
Qed.
Lemma nul_complete t : complete g -> final t -> (forall s, Nul g s -> is_nullable g t s = true) /\ (forall l, NulL g l -> all_nullable g t l = true).
Proof.
  intros C F. apply Nul_both.
  - intros s E. unfold is_nullable. rewrite E. reflexivity.
  - intros s rhs I N H. destruct (lhs_nterm _ _ C I) as (A & T). rewrite nullable_nonterm by exact T. apply (F s rhs A I). exact H.
  - reflexivity.
  - intros s l N H NL HL. unfold all_nullable in *. cbn [forallb]. rewrite H, HL. reflexivity.
Qed.
Lemma fst_complete t s x : complete g -> final t -> Fst g s x -> In x (get_first g t s).
Proof.
  intros C F. induction 1 as [x (p & P & T & N)|s rhs pre y post x I E NP FY IH].
  - unfold get_first, terminal. rewrite P. change (leaf p) with (is_terminal p) in T. rewrite T. destruct p; try (left; reflexivity). congruence.
  - destruct (lhs_nterm _ _ C I) as (A & T). rewrite first_nonterm by exact T. destruct (F s rhs A I) as (_ & [K1 _ _]).
    eapply (K1 pre y post); [exact E| |exact IH]. cbn [app]. apply (proj2 (nul_complete t C F)). exact NP.
Qed.
Lemma flw_complete t s x : complete g -> final t -> terminal g s = false -> Flw g s x -> In x (t_follow t s).
Proof.
  intros C F T H. revert T. induction H as [s rhs pre y post x RE I E FP|s rhs pre y post x I E NP FS IH]; intros T.
  - destruct (lhs_nterm _ _ C I) as (A & _). destruct (F s rhs A I) as (_ & [_ _ K3]). destruct FP as (k & z & r & -> & N & FZ).
    eapply (K3 pre y k z r); [exact E|exact T|apply (proj2 (nul_complete t C F)); exact N|]. apply fst_complete; assumption.
  - destruct (lhs_nterm _ _ C I) as (A & TA). destruct (F s rhs A I) as (_ & [_ K2 _]).
    eapply (K2 pre y post); [exact E|exact T|apply (proj2 (nul_complete t C F)); exact NP|]. apply IH. exact TA.
Qed.

(** ** Termination *)
Definition weight1 (t : tables) (a : sym) : nat := ((if t_null t a then 1 else 0) + length (t_first t a) + length (t_follow t a))%nat.
Fixpoint weight (t : tables) (l : list sym) : nat := match l with [] => 0%nat | a :: l' => (weight1 t a + weight t l')%nat end.
Definition bounded (t : tables) : Prop := forall a,
  NoDup (t_first t a) /\ incl (t_first t a) (map fst (g_prods g)) /\ NoDup (t_follow t a) /\ incl (t_follow t a) (map fst (g_prods g)).
Lemma weight_bound t l : bounded t -> (weight t l <= length l * (1 + 2 * length (g_prods g)))%nat.
Proof.
  intros B. induction l as [|a l IH]; cbn [weight length]; [lia|].
  destruct (B a) as (N1 & I1 & N2 & I2). pose proof (NoDup_incl_length N1 I1). pose proof (NoDup_incl_length N2 I2). rewrite map_length in *.
  unfold weight1. destruct (t_null t a); lia.
Qed.
Lemma weight_ext t t' l : (forall a, In a l -> weight1 t' a = weight1 t a) -> weight t' l = weight t l.
Proof. induction l as [|a l IH]; intros H; cbn [weight]; [reflexivity|]. rewrite H, IH; auto using in_eq, in_cons. Qed.
Lemma weight_more t t' l k : In k l -> (forall a, (weight1 t a <= weight1 t' a)%nat) -> (weight1 t k < weight1 t' k)%nat -> (weight t l < weight t' l)%nat.
Proof.
  intros I M L. assert (G : forall l, (weight t l <= weight t' l)%nat).
  { induction l0 as [|a l0 IH]; cbn [weight]; [lia|]. specialize (M a). lia. }
  induction l as [|a l IH]; [destruct I|]. cbn [weight]. destruct I as [-> | I].
  - specialize (G l). lia.
  - specialize (IH I). specialize (M a). lia.
Qed.
Definition W (st : state) : nat := weight (fst st) (g_nterms g).
Lemma find_in s p : find g s = Some p -> In s (map fst (g_prods g)).
Proof.
  unfold find. destruct (List.find (fun e => Nat.eqb (fst e) s) (g_prods g)) as [e|] eqn:E; [|discriminate]. intros _.
  apply find_some in E. destruct E as (I & E). apply Nat.eqb_eq in E. subst. apply in_map. exact I.
Qed.
Lemma get_first_in t s : bounded t -> incl (get_first g t s) (map fst (g_prods g)).
Proof.
  intros B. unfold get_first, terminal. destruct (find g s) as [p|] eqn:F; [|apply B].
  destruct p; cbn [is_terminal]; try apply B; try (intros x [<- | []]; eapply find_in; eauto). intros x [].
Qed.
Definition advance (st st' : state) : Prop := st' = st \/ (snd st' = true /\ (W st < W st')%nat).
Lemma add_first_adv dst src st : In dst (g_nterms g) -> incl src (map fst (g_prods g)) -> bounded (fst st) ->
  advance st (add_first dst src st) /\ bounded (fst (add_first dst src st)).
Proof.
  intros D I B. destruct st as [[tn tf tw] c]. unfold add_first, add, advance, W. cbn [fst snd t_first t_null t_follow].
  destruct (Nat.eqb_spec (length (union (tf dst) src)) (length (tf dst))) as [E|E]; [split; [left; reflexivity|exact B]|].
  split.
  - right. split; [reflexivity|]. apply (weight_more _ _ _ dst D); unfold weight1; cbn [t_null t_first t_follow fst].
    + intros a. destruct (put_cases tf dst (union (tf dst) src) a) as [(-> & ->) | (_ & ->)]; [|lia]. pose proof (union_longer _ _ E). lia.
    + rewrite put_same. pose proof (union_longer _ _ E). lia.
  - intros a. specialize (B a). cbn [fst t_first t_follow] in *. destruct B as (B1 & B2 & B3 & B4).
    destruct (put_cases tf dst (union (tf dst) src) a) as [(-> & ->) | (_ & ->)]; [|auto].
    split; [apply union_NoDup; exact B1|]. split; [|auto]. intros x X. apply union_In in X. destruct X; auto.
Qed.
Lemma add_follow_adv dst src st : In dst (g_nterms g) -> incl src (map fst (g_prods g)) -> bounded (fst st) ->
  advance st (add_follow dst src st) /\ bounded (fst (add_follow dst src st)).
Proof.
  intros D I B. destruct st as [[tn tf tw] c]. unfold add_follow, add, advance, W. cbn [fst snd t_first t_null t_follow].
  destruct (Nat.eqb_spec (length (union (tw dst) src)) (length (tw dst))) as [E|E]; [split; [left; reflexivity|exact B]|].
  split.
  - right. split; [reflexivity|]. apply (weight_more _ _ _ dst D); unfold weight1; cbn [t_null t_first t_follow fst].
    + intros a. destruct (put_cases tw dst (union (tw dst) src) a) as [(-> & ->) | (_ & ->)]; [|lia]. pose proof (union_longer _ _ E). lia.
    + rewrite put_same. pose proof (union_longer _ _ E). lia.
  - intros a. specialize (B a). cbn [fst t_first t_follow] in *. destruct B as (B1 & B2 & B3 & B4).
    destruct (put_cases tw dst (union (tw dst) src) a) as [(-> & ->) | (_ & ->)]; [|auto].
    split; [auto|]. split; [auto|]. split; [apply union_NoDup; exact B3|]. intros x X. apply union_In in X. destruct X; auto.
Qed.
Lemma nonterm_in a rhs x : complete g -> In rhs (rhss_of g a) -> In x rhs -> terminal g x = false -> In x (g_nterms g).
Proof.
  intros C R X T. apply (cp_nterm g C). unfold terminal in T. destruct (find g x) as [p|] eqn:F; [exists p; auto|].
  exfalso. exact (cp_closed g C _ _ _ R X F).
Qed.
Lemma elem_adv st st' : complete g -> elem st st' -> bounded (fst st) -> advance st st' /\ bounded (fst st').
Proof.
  intros C H B. destruct H as [st|t c a rhs A R N F|st a rhs pre x post A R E N|st a rhs pre x post A R E T N|st a rhs pre x mid y post A R E T N].
  - split; [left; reflexivity|exact B].
  - split; [right; split; [reflexivity|]|exact B]. unfold W. cbn [fst]. apply (weight_more _ _ _ a A); unfold weight1; cbn [t_null t_first t_follow].
    + intros b. destruct (put_cases (t_null t) a true b) as [(-> & ->) | (_ & ->)]; [destruct (t_null t a); lia|lia].
    + rewrite put_same, F. lia.
  - apply add_first_adv; [exact A|apply get_first_in; exact B|exact B].
  - apply add_follow_adv; [|apply B|exact B]. eapply nonterm_in; eauto. subst rhs. apply in_or_app. right. left. reflexivity.
  - apply add_follow_adv; [|apply get_first_in; exact B|exact B]. eapply nonterm_in; eauto. subst rhs. apply in_or_app. right. left. reflexivity.
Qed.
Lemma run_adv st st' : complete g -> run st st' -> bounded (fst st) -> advance st st' /\ bounded (fst st').
Proof.
  intros C. induction 1 as [st|a b c E R IH]; intros B; [split; [left; reflexivity|exact B]|].
  destruct (elem_adv _ _ C E B) as (A1 & B1). destruct (IH B1) as (A2 & B2). split; [|exact B2].
  destruct A1 as [-> | (A1 & L1)]; [exact A2|]. destruct A2 as [-> | (A2 & L2)]; right; split; auto. lia.
Qed.
Lemma rounds_stop : complete g -> forall n t, bounded t ->
  (length (g_nterms g) * (1 + 2 * length (g_prods g)) < n + weight t (g_nterms g))%nat -> exists t', rounds n g t = Some t'.
Proof.
  intros C. induction n as [|n IH]; intros t B L.
  - exfalso. pose proof (weight_bound t (g_nterms g) B). lia.
  - cbn [rounds]. destruct (round g t) as [t' c] eqn:R. pose proof (round_run t) as RR. rewrite R in RR.
    destruct (run_adv _ _ C RR B) as (A & B'). destruct c; [|eauto]. destruct A as [A | (_ & A)]; [discriminate|].
    unfold W in A. cbn [fst] in A. cbn [fst] in B'. apply IH; [exact B'|]. lia.
Qed.
Lemma rounds_result n : forall t t', rounds n g t = Some t' -> (forall a, In a (g_nterms g) -> reached g a) -> sound t -> sound t' /\ final t'.
Proof.
  induction n as [|n IH]; intros t t' H RE S; [discriminate|]. cbn [rounds] in H. destruct (round g t) as [u c] eqn:R.
  pose proof (round_run t) as RR. rewrite R in RR. pose proof (run_sound _ _ RE RR S) as S'. cbn [fst] in S'.
  destruct c; [eapply IH; eauto|]. injection H as <-. split; [exact S'|]. apply round_quiet in R. destruct R as (-> & F). exact F.
Qed.
Lemma no_tables_bounded : bounded no_tables.
Proof. intros a. cbn. repeat split; try constructor; intros x []. Qed.
Lemma no_tables_sound : sound no_tables.
Proof. split; [intros s; discriminate|]. split; intros s x []. Qed.
End G.
