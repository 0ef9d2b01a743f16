(** Removing unused productions. *)
From Verif Require Import Base GrammarModel GrammarSpec GrammarProofs GrammarProofs2.

Inductive path (g : grammar) (a : sym) : sym -> Prop :=
| path_refl : path g a a
| path_snoc b rhs c : path g a b -> In rhs (rhss_of g b) -> In c rhs -> path g a c.
Lemma path_trans g a b c : path g a b -> path g b c -> path g a c.
Proof. intros A B. induction B as [|b' rhs c' B IH R I]; [exact A|]. eapply path_snoc; eauto. Qed.

Definition keys (g : grammar) : list sym := map fst (g_prods g).
Lemma find_key g s : NoDup (keys g) -> (find g s <> None <-> In s (keys g)).
Proof.
  intros N. unfold find, keys. destruct (List.find (fun e => Nat.eqb (fst e) s) (g_prods g)) as [e|] eqn:E.
  - apply find_some in E. destruct E as (I & E). apply Nat.eqb_eq in E. subst. split; [intros _; apply in_map; exact I|discriminate].
  - split; [congruence|]. intros I. exfalso. apply in_map_iff in I. destruct I as (e & <- & I).
    apply (find_none _ _ E) in I. rewrite Nat.eqb_refl in I. discriminate.
Qed.
Definition free (g : grammar) (c : list sym) : nat := length (filter (fun s => negb (mem s c)) (keys g)).
Lemma filter_le {A} (p q : A -> bool) l : (forall x, p x = true -> q x = true) -> (length (filter p l) <= length (filter q l))%nat.
Proof.
  intros H. induction l as [|x l IH]; cbn [filter]; [lia|]. specialize (H x). destruct (p x); [rewrite H by reflexivity; cbn [length]; lia|].
  destruct (q x); cbn [length]; lia.
Qed.
Lemma free_mono g c d : incl c d -> (free g d <= free g c)%nat.
Proof.
  intros I. apply filter_le. intros x H. apply negb_true_iff, mem_false in H. apply negb_true_iff, mem_false. intros K. apply H, I, K.
Qed.
Lemma free_less g c p : In p (keys g) -> mem p c = false -> (free g (p :: c) < free g c)%nat.
Proof.
  intros I M. unfold free. revert I. induction (keys g) as [|x l IH]; [intros []|]. intros I. cbn [filter].
  assert (LE : (length (filter (fun s => negb (mem s (p :: c))) l) <= length (filter (fun s => negb (mem s c)) l))%nat).
  { apply filter_le. intros y. cbn [mem existsb]. rewrite !negb_true_iff. intros H. apply orb_false_iff in H. apply H. }
  destruct (Nat.eq_dec x p) as [->|NE].
  - rewrite M. replace (mem p (p :: c)) with true by (symmetry; apply mem_In; left; reflexivity). cbn [negb length]. lia.
  - destruct I as [-> | I]; [contradiction|]. specialize (IH I).
    replace (mem x (p :: c)) with (mem x c); [destruct (mem x c); cbn [negb length]; lia|].
    cbn [mem existsb]. replace (Nat.eqb x p) with false by (symmetry; apply Nat.eqb_neq; exact NE). reflexivity.
Qed.
Lemma fold_concat {A B} (f : A -> B -> A) (ls : list (list B)) : forall a, fold_left (fun a l => fold_left f l a) ls a = fold_left f (concat ls) a.
Proof. induction ls as [|l ls IH]; intros a; cbn [fold_left concat]; [reflexivity|]. rewrite fold_left_app. apply IH. Qed.

Definition succs (g : grammar) (s : sym) : list sym := concat (rhss_of g s).
Lemma succs_in g s x : In x (succs g s) <-> exists rhs, In rhs (rhss_of g s) /\ In x rhs.
Proof. unfold succs. rewrite in_concat. split; intros (r & A & B); exists r; auto. Qed.
Lemma closure_unfold n g c p : closure_rec (S n) g c p = if mem p c then c else fold_left (closure_rec n g) (succs g p) (p :: c).
Proof.
  cbn [closure_rec]. destruct (mem p c); [reflexivity|]. rewrite fold_concat. destruct (terminal g p) eqn:T; [|reflexivity].
  unfold succs. replace (rhss_of g p) with (@nil (list sym)); [reflexivity|]. unfold terminal, rhss_of in *. destruct (find g p) as [q|]; [|reflexivity].
  destruct q; discriminate || reflexivity.
Qed.

(** What a call of _closureRecurse adds to the set. *)
Record visited (g : grammar) (c R : list sym) (from : list sym) : Prop := mkVisited {
  vi_incl : incl c R;
  vi_from : incl from R;
  vi_path : forall x, In x R -> In x c \/ exists y, In y from /\ path g y x;
  vi_closed : forall x y, In x R -> ~ In x c -> In y (succs g x) -> In y R }.
Lemma closure_visited g : complete g -> forall n c p, In p (keys g) -> (free g c < n)%nat -> visited g c (closure_rec n g c p) [p].
Proof.
  intros C. induction n as [|n IH]; intros c p K L; [lia|]. rewrite closure_unfold. destruct (mem p c) eqn:M.
  - apply mem_In in M. constructor; [apply incl_refl|intros x [<- | []]; exact M|auto|contradiction].
  - pose proof (free_less g c p K M) as FL.
    assert (H : forall l c', (free g c' < n)%nat -> incl l (keys g) -> visited g c' (fold_left (closure_rec n g) l c') l).
    { induction l as [|y l IHl]; intros c' L' KL; cbn [fold_left].
      - constructor; [apply incl_refl|intros x []|auto|contradiction].
      - destruct (IH c' y (KL y (in_eq _ _)) L') as [A1 A2 A3 A4]. set (R1 := closure_rec n g c' y) in *.
        destruct (IHl R1) as [B1 B2 B3 B4]; [pose proof (free_mono g c' R1 A1); lia|intros z Z; apply KL; right; exact Z|].
        set (R2 := fold_left (closure_rec n g) l R1) in *. constructor.
        + eapply incl_tran; eassumption.
        + intros z [<- | Z]; [apply B1, A2; left; reflexivity|apply B2; exact Z].
        + intros x X. destruct (B3 x X) as [X1 | (z & Z & P)]; [|right; exists z; split; [right; exact Z|exact P]].
          destruct (A3 x X1) as [X2 | (z & [<- | []] & P)]; [left; exact X2|right; exists y; split; [left; reflexivity|exact P]].
        + intros x z X NX S1. destruct (in_dec Nat.eq_dec x R1) as [X1|X1]; [apply B1; eapply A4; eauto|eapply B4; eauto]. }
    assert (KS : incl (succs g p) (keys g)).
    { intros y Y. apply succs_in in Y. destruct Y as (rhs & R & I). apply find_key; [apply (cp_prods g C)|]. eapply (cp_closed g C); eauto. }
    destruct (H (succs g p) (p :: c) ltac:(lia) KS) as [A1 A2 A3 A4]. set (R := fold_left _ _ _) in *. constructor.
    + intros x X. apply A1. right. exact X.
    + intros x [<- | []]. apply A1. left. reflexivity.
    + intros x X. destruct (A3 x X) as [[<- | X1] | (y & Y & P)].
      * right. exists p. split; [left; reflexivity|constructor].
      * left. exact X1.
      * right. exists p. split; [left; reflexivity|]. apply succs_in in Y. destruct Y as (rhs & RR & I).
        eapply path_trans; [|exact P]. eapply path_snoc; [constructor|exact RR|exact I].
    + intros x y X NX Y. destruct (Nat.eq_dec x p) as [->|NE]; [apply A2; exact Y|].
      eapply A4; [exact X| |exact Y]. intros [E | E]; [congruence|contradiction].
Qed.
Lemma closure_spec g x : complete g -> In x (closure g) <-> path g (g_root g) x.
Proof.
  intros C. assert (KR : In (g_root g) (keys g)) by (apply find_key; [apply (cp_prods g C)|apply (cp_root g C)]).
  destruct (closure_visited g C (S (length (g_prods g))) [] (g_root g) KR) as [A1 A2 A3 A4].
  { unfold free, keys. apply (Nat.le_lt_trans _ (length (map fst (g_prods g)))); [|rewrite map_length; lia].
    transitivity (length (filter (fun _ => true) (map fst (g_prods g)))); [apply filter_le; auto|]. clear. induction (map fst (g_prods g)); cbn; lia. }
  fold (closure g) in *. split.
  - intros X. destruct (A3 x X) as [[] | (y & [<- | []] & P)]. exact P.
  - intros P. induction P as [|b rhs z P IH R I]; [apply A2; left; reflexivity|]. eapply A4; [exact IH|intros []|]. apply succs_in. exists rhs. auto.
Qed.

(** The grammar restricted to what the root reaches. *)
Lemma find_filter (l : list (sym * prod)) c s : mem s c = true ->
  List.find (fun e => Nat.eqb (fst e) s) (filter (fun e => mem (fst e) c) l) = List.find (fun e => Nat.eqb (fst e) s) l.
Proof.
  intros M. induction l as [|[k p] l IH]; [reflexivity|]. cbn [filter fst List.find]. destruct (Nat.eqb_spec k s) as [->|N].
  - rewrite M. cbn [List.find fst]. rewrite Nat.eqb_refl. reflexivity.
  - destruct (mem k c); [|exact IH]. cbn [List.find fst]. replace (Nat.eqb k s) with false by (symmetry; apply Nat.eqb_neq; exact N). exact IH.
Qed.
Section R.
Context (g : grammar) (C : complete g).
Let g' := fst (simplify_round g).
Lemma simple_find s : path g (g_root g) s -> find g' s = find g s.
Proof. intros P. apply (closure_spec g s C) in P. apply mem_In in P. unfold g', find. unfold simplify_round. cbn [fst g_prods]. rewrite (find_filter _ _ _ P). reflexivity. Qed.
Lemma simple_none s : ~ path g (g_root g) s -> find g' s = None.
Proof.
  intros P. unfold g', find. unfold simplify_round. cbn [fst g_prods]. destruct (List.find (fun e => Nat.eqb (fst e) s) (filter (fun e => mem (fst e) (closure g)) (g_prods g))) as [e|] eqn:E; [|reflexivity].
  exfalso. apply find_some in E. destruct E as (I & E). apply Nat.eqb_eq in E. subst. apply filter_In in I. destruct I as (_ & I). apply mem_In in I.
  apply P. apply closure_spec; assumption.
Qed.
Lemma simple_rhss s : path g (g_root g) s -> rhss_of g' s = rhss_of g s.
Proof. intros P. unfold rhss_of. rewrite simple_find by exact P. reflexivity. Qed.
Lemma simple_path x : path g' (g_root g) x <-> path g (g_root g) x.
Proof.
  split.
  - induction 1 as [|b rhs z P IH R I]; [constructor|]. rewrite simple_rhss in R by exact IH. eapply path_snoc; eauto.
  - induction 1 as [|b rhs z P IH R I]; [constructor|]. eapply path_snoc; [exact IH| |exact I]. rewrite simple_rhss by exact P. exact R.
Qed.
Lemma reach_dec s : {In s (closure g)} + {~ In s (closure g)}.
Proof. apply in_dec, Nat.eq_dec. Qed.
Lemma simple_keys : keys g' = filter (fun s => mem s (closure g)) (keys g).
Proof.
  unfold keys, g', simplify_round. cbn [fst g_prods]. induction (g_prods g) as [|[k p] l IH]; [reflexivity|]. cbn [filter map fst]. destruct (mem k (closure g)); cbn [map fst]; rewrite IH; reflexivity.
Qed.
Lemma simple_nterms : g_nterms g' = filter (fun s => mem s (closure g)) (g_nterms g).
Proof.
  unfold g', simplify_round. cbn [fst g_nterms]. apply filter_ext_in. intros s I. apply (cp_nterm g C) in I. destruct I as (p & F & _).
  assert (K : In s (keys g)) by (apply find_key; [apply (cp_prods g C)|congruence]). apply mem_In in K. unfold keys in K. rewrite K.
  cbn [negb]. apply orb_false_r.
Qed.
Lemma simple_complete : complete g'.
Proof.
  constructor.
  - change (NoDup (keys g')). rewrite simple_keys. apply NoDup_filter, (cp_prods g C).
  - rewrite simple_nterms. apply NoDup_filter, (cp_nterms g C).
  - intros s. rewrite simple_nterms, filter_In, mem_In, (cp_nterm g C). rewrite closure_spec by exact C. split.
    + intros ((p & F & T) & P). exists p. rewrite simple_find by exact P. auto.
    + intros (p & F & T). destruct (reach_dec s) as [I|I]; rewrite closure_spec in I by exact C.
      * rewrite simple_find in F by exact I. split; [exists p; auto|exact I].
      * rewrite simple_none in F by exact I. discriminate.
  - intros s rhs x R I. destruct (reach_dec s) as [J|J]; rewrite closure_spec in J by exact C.
    + apply alternative_iff in R. rewrite simple_rhss in R by exact J. rewrite simple_find; [eapply (cp_closed g C); eauto|]. eapply path_snoc; eauto.
    + apply alternative_iff in R. unfold rhss_of in R. rewrite simple_none in R by exact J. destruct R.
  - change (g_root g') with (g_root g). rewrite simple_find by constructor. apply (cp_root g C).
Qed.
Lemma simple_changed : snd (simplify_round g') = false.
Proof.
  unfold simplify_round. cbn [snd]. apply negb_false_iff. apply forallb_forall. intros e E. apply mem_In. apply (closure_spec g' _ simple_complete).
  change (g_root g') with (g_root g). apply simple_path. unfold g', simplify_round in E. cbn [fst g_prods] in E. apply filter_In in E. destruct E as (_ & E). apply mem_In in E.
  apply closure_spec; assumption.
Qed.
Lemma simple_reached s : In s (g_nterms g') -> reached g' s.
Proof.
  rewrite simple_nterms, filter_In, mem_In, closure_spec by exact C. intros (_ & P). apply simple_path in P.
  change (g_root g) with (g_root g') in P. clear - P. induction P as [|b rhs z P (x & y & D) R I].
  - exists [], []. constructor.
  - apply in_split in I. destruct I as (u & v & ->). exists (x ++ u), (v ++ y). pose proof (derives_expand g' _ _ _ _ R D) as E.
    rewrite <- app_assoc in E. cbn [app] in E. rewrite <- app_assoc. exact E.
Qed.
(** The same derivations. *)
Lemma simple_step a b : Forall (path g (g_root g)) a -> (step g a b <-> step g' a b) /\ (step g a b -> Forall (path g (g_root g)) b).
Proof.
  intros F. split; [split|].
  - intros H. inversion H; subst; alts; apply Forall_app in F; destruct F as (_ & F); inversion F; subst.
    + apply step_rhs. rewrite simple_rhss by assumption. assumption.
    + apply step_eps. rewrite simple_find by assumption. assumption.
  - intros H. inversion H; subst; alts; apply Forall_app in F; destruct F as (_ & F); inversion F; subst.
    + apply step_rhs. rewrite simple_rhss in H0 by assumption. assumption.
    + apply step_eps. rewrite simple_find in H0 by assumption. assumption.
  - intros H. inversion H; subst; alts; apply Forall_app in F; destruct F as (F0 & F); inversion F; subst; apply Forall_app; split; auto.
    apply Forall_app. split; [|assumption]. apply Forall_forall. intros z Z. eapply path_snoc; eauto.
Qed.
Lemma simple_derives a b : Forall (path g (g_root g)) a -> (derives g a b <-> derives g' a b).
Proof.
  intros F. assert (H : forall b, derives g a b -> derives g' a b /\ Forall (path g (g_root g)) b).
  { intros b' D. induction D as [l|l m n D IH ST]; [split; [constructor|exact F]|]. destruct (IH F) as (D' & FM).
    destruct (simple_step m n FM) as ((S1 & _) & S2). split; [eapply der_step; [exact D'|apply S1; exact ST]|apply S2; exact ST]. }
  split; [intros D; apply H; exact D|].
  intros D. assert (K : derives g a b /\ Forall (path g (g_root g)) b); [|apply K].
  induction D as [l|l m n D IH ST]; [split; [constructor|exact F]|]. destruct (IH F H) as (D' & FM).
  destruct (simple_step m n FM) as ((_ & S1) & S2). split; [eapply der_step; [exact D'|apply S1; exact ST]|apply S2, S1; exact ST].
Qed.
End R.

(** A derivation from the root only mentions what the root reaches. *)
Lemma derives_path g l : derives g [g_root g] l -> Forall (path g (g_root g)) l.
Proof.
  intros D. remember [g_root g] as l0 eqn:E. induction D as [l|l m n D IH ST]; [subst; constructor; [constructor|constructor]|].
  specialize (IH E). inversion ST; subst; alts; apply Forall_app in IH; destruct IH as (F0 & F); inversion F; subst; apply Forall_app; split; auto.
  apply Forall_app. split; [|assumption]. apply Forall_forall. intros z Z. eapply path_snoc; eauto.
Qed.

(** _simplify *)
Lemma simplify_spec g m : complete g -> (2 <= m)%nat -> simplify m g = Some (fst (simplify_round g)) \/
  simplify m g = Some (fst (simplify_round (fst (simplify_round g)))).
Proof.
  intros C L. destruct m as [|[|m]]; [lia|lia|]. cbn [simplify].
  destruct (simplify_round g) as [g1 c1] eqn:E1. destruct c1; [|left; reflexivity]. right.
  pose proof (simple_changed g C) as H. rewrite E1 in H. cbn [fst] in *. destruct (simplify_round g1) as [g2 c2]. cbn [snd] in H. subst c2. reflexivity.
Qed.
(** The simplified grammar. *)
Record simplified (g g' : grammar) : Prop := mkSimplified {
  sf_complete : complete g';
  sf_root : g_root g' = g_root g;
  sf_reached : forall s, In s (g_nterms g') -> reached g' s;
  sf_nterms : forall s, In s (g_nterms g') <-> In s (g_nterms g) /\ path g (g_root g) s;
  sf_find : forall s, path g (g_root g) s -> find g' s = find g s;
  sf_derives : forall l l', Forall (path g (g_root g)) l -> (derives g l l' <-> derives g' l l');
  sf_small : (length (g_nterms g') <= length (g_nterms g))%nat /\ (length (g_prods g') <= length (g_prods g))%nat }.
Lemma filter_len {A} (p : A -> bool) l : (length (filter p l) <= length l)%nat.
Proof. induction l as [|x l IH]; cbn; [lia|]. destruct (p x); cbn; lia. Qed.
Lemma round_simplified g : complete g -> simplified g (fst (simplify_round g)).
Proof.
  intros C. constructor.
  - apply simple_complete. exact C.
  - reflexivity.
  - apply simple_reached. exact C.
  - intros s. rewrite simple_nterms, filter_In, mem_In, closure_spec by exact C. reflexivity.
  - apply simple_find. exact C.
  - intros. apply simple_derives; assumption.
  - split; apply filter_len.
Qed.
Lemma simplified_trans g g1 g2 : (forall s, path g1 (g_root g1) s <-> path g (g_root g) s) -> simplified g g1 -> simplified g1 g2 -> simplified g g2.
Proof.
  intros PP [A1 A2 A3 A4 A5 A6 (A7 & A8)] [B1 B2 B3 B4 B5 B6 (B7 & B8)]. constructor; auto; try congruence.
  - intros s. rewrite B4, A4, PP. tauto.
  - intros s P. rewrite B5 by (apply PP; exact P). apply A5. exact P.
  - intros l l' F. rewrite (A6 l l' F). apply B6. eapply Forall_impl; [|exact F]. intros s. apply PP.
  - split; lia.
Qed.
Lemma simplify_simplified g g' m : complete g -> simplify m g = Some g' -> simplified g g'.
Proof.
  intros C H.
  destruct m as [|m]; [discriminate|]. cbn [simplify] in H. destruct (simplify_round g) as [g1 c1] eqn:E1.
  assert (S1 : simplified g g1) by (pose proof (round_simplified g C) as S1; rewrite E1 in S1; exact S1).
  destruct c1; [|injection H as <-; exact S1].
  destruct m as [|m]; [discriminate|]. cbn [simplify] in H. destruct (simplify_round g1) as [g2 c2] eqn:E2.
  assert (C1 : complete g1) by apply S1.
  pose proof (simple_changed g C) as CH. rewrite E1 in CH. cbn [fst] in CH. rewrite E2 in CH. cbn [snd] in CH. subst c2. injection H as <-.
  eapply simplified_trans; [|exact S1|pose proof (round_simplified g1 C1) as S2; rewrite E2 in S2; exact S2].
  intros s. pose proof (simple_path g C s) as SP. rewrite E1 in SP. cbn [fst] in SP. rewrite (sf_root _ _ S1). exact SP.
Qed.
Lemma simplify_fuel g m m' : (m <= m')%nat -> forall g', simplify m g = Some g' -> simplify m' g = Some g'.
Proof.
  intros L. revert g m' L. induction m as [|m IH]; intros g m' L g' H; [discriminate|]. destruct m' as [|m']; [lia|]. cbn [simplify] in *.
  destruct (simplify_round g) as [g1 c1]. destruct c1; [|exact H]. apply IH; [lia|exact H].
Qed.
Lemma rounds_fuel g n : forall n' t t', (n <= n')%nat -> rounds n g t = Some t' -> rounds n' g t = Some t'.
Proof.
  induction n as [|n IH]; intros n' t t' L H; [discriminate|]. destruct n' as [|n']; [lia|]. cbn [rounds] in *.
  destruct (round g t) as [u c]. destruct c; [|exact H]. eapply IH; [lia|exact H].
Qed.
