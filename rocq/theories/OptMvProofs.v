(* The liveness analysis of move-last-uses: it ends, and the result is exact. *)
From Coq Require Import List Arith Bool ZArith Lia.
From Verif Require Import OptModel OptModel2 OptSpec OptSpec2 OptMvModel OptMvSpec OptProofs1 OptProofs2 OptProofs3 OptProofs4 OptProofs5 OptProofs6 OptProofs7 OptProofs8 OptProofs9.
Import ListNotations.

Lemma sub_vset_ok a b : sub_vset a b = true <-> incl a b.
Proof. unfold sub_vset. rewrite forallb_forall. unfold incl. split; intros H x Hx; specialize (H x Hx); now apply mem_in. Qed.
Lemma eq_vset_ok a b : eq_vset a b = true <-> (forall x, In x a <-> In x b).
Proof. unfold eq_vset. rewrite andb_true_iff, !sub_vset_ok. unfold incl. firstorder. Qed.
Lemma mem_not x l : mem x l = false <-> ~ In x l.
Proof. split; [intros H X; apply mem_in in X; congruence | intros H; destruct (mem x l) eqn:M; auto; apply mem_in in M; contradiction]. Qed.

Section Loop.
Variable g : graph.
Variable tr : gnode -> transfer.
Variable Hc : closed g.
Notation needed := (needed_after g tr).
Notation lloop := (lloop g tr).

Lemma live_before_in n out x : In x (live_before tr n out) <-> (In x out /\ ~ In x (t_write (tr n))) \/ In x (t_read (tr n)).
Proof. unfold live_before. rewrite nodup_In, in_app_iff, filter_In, negb_true_iff, mem_not. tauto. Qed.
Lemma live_after_in r n x : In x (live_after g r n) <-> exists m, edge g n m /\ In x (l_in r m).
Proof.
  unfold live_after. rewrite nodup_In, in_flat_map. split; intros (m & H1 & H2); exists m; split; auto; now apply downstream_in.
Qed.
Definition settled (r : lres) (n : gnode) : Prop :=
  exists o, l_out r n = Some o /\ (forall x, In x o <-> exists m, edge g n m /\ In x (l_in r m)) /\
    (forall x, In x (l_in r n) <-> In x (live_before tr n o)).
Definition vars_read : list var := flat_map (fun n => t_read (tr n)) (g_nodes g).
Record linv (S : gnode -> Prop) (wl : list gnode) (r : lres) : Prop := {
  i_settled : forall n, S n \/ l_out r n <> None -> ~ In n wl -> settled r n;
  i_in : forall n x, In x (l_in r n) -> In x (t_read (tr n)) \/ (~ In x (t_write (tr n)) /\ needed x n);
  i_out : forall n o x, l_out r n = Some o -> In x o -> needed x n;
  i_grow : forall n x, In x (l_in r n) -> In x (live_before tr n (live_after g r n));
  i_wl : incl wl (g_nodes g) /\ NoDup wl;
  i_dom : forall n x, In x (l_in r n) -> In n (g_nodes g) /\ In x vars_read }.

Lemma lloop_eq fuel n wl r : lloop (S fuel) (n :: wl) r =
  if eq_vset (live_before tr n (live_after g r n)) (l_in r n) then lloop fuel wl {| l_in := l_in r; l_out := setn (l_out r) n (Some (live_after g r n)) |}
  else lloop fuel (fold_left push (upstream g n) wl)
         {| l_in := setn (l_in r) n (live_before tr n (live_after g r n)); l_out := setn (l_out r) n (Some (live_after g r n)) |}.
Proof. reflexivity. Qed.
Lemma push_nodup ns : forall wl, NoDup wl -> NoDup (fold_left push ns wl).
Proof.
  induction ns as [|n ns IH]; intros wl H; simpl; auto. apply IH. unfold push. destruct (memn n wl) eqn:M; auto.
  apply NoDup_app_i; auto; [repeat constructor; auto|]. intros x Hx [<- | []]. apply memn_in in Hx. congruence.
Qed.
Lemma after_needed S wl r n x : linv S wl r -> In x (live_after g r n) -> needed x n.
Proof.
  intros I H. apply live_after_in in H as (m & He & Hm). destruct (i_in _ _ _ I m x Hm) as [X | [X Y]]; [eapply needed_read | eapply needed_later]; eauto.
Qed.
Lemma needed_read_var x n : needed x n -> In x vars_read.
Proof. induction 1 as [n m He Hr|]; auto. apply in_flat_map. exists m. split; auto. now apply (Hc n m). Qed.

(* One step of the loop. *)
Definition same_in (r : lres) (n : gnode) : lres := {| l_in := l_in r; l_out := setn (l_out r) n (Some (live_after g r n)) |}.
Definition new_in (r : lres) (n : gnode) : lres :=
  {| l_in := setn (l_in r) n (live_before tr n (live_after g r n)); l_out := setn (l_out r) n (Some (live_after g r n)) |}.
Lemma step_same S n wl r : linv S (n :: wl) r -> eq_vset (live_before tr n (live_after g r n)) (l_in r n) = true -> linv S wl (same_in r n).
Proof.
  intros I B. pose proof (proj1 (eq_vset_ok _ _) B) as B'. destruct (i_wl _ _ _ I) as [W1 W2]. constructor; simpl.
  - intros m Hm Hwl. destruct (gnode_dec m n) as [-> | Hne].
    + exists (live_after g r n). simpl. rewrite setn_same. split; auto. split; [intros x; apply live_after_in|]. intros x. symmetry. apply B'.
    + rewrite setn_other in Hm by auto. destruct (i_settled _ _ _ I m Hm) as (o & S1 & S2 & S3); [intros [X | X]; congruence|].
      exists o. simpl. rewrite setn_other by auto. auto.
  - apply I.
  - intros m o x Ho Hx. destruct (gnode_dec m n) as [-> | Hne]; [|rewrite setn_other in Ho by auto; eapply i_out; eauto].
    rewrite setn_same in Ho. injection Ho as <-. eapply after_needed; eauto.
  - intros m x Hx. apply (i_grow _ _ _ I m x Hx).
  - inversion W2; subst. split; auto. intros m Hm. apply W1. simpl. auto.
  - apply I.
Qed.
Lemma in_mono S n wl r m x : linv S (n :: wl) r -> In x (l_in r m) -> In x (l_in (new_in r n) m).
Proof.
  intros I H. simpl. destruct (gnode_dec m n) as [-> | Hne]; [rewrite setn_same; eapply i_grow; eauto | rewrite setn_other; auto].
Qed.
Lemma step_new S n wl r : linv S (n :: wl) r -> linv S (fold_left push (upstream g n) wl) (new_in r n).
Proof.
  intros I. destruct (fold_push (upstream g n) wl) as (P1 & P2 & P3). destruct (i_wl _ _ _ I) as [W1 W2].
  assert (Hn : In n (g_nodes g)) by (apply W1; simpl; auto).
  assert (HB : forall x, In x (live_before tr n (live_after g r n)) -> In x (t_read (tr n)) \/ (~ In x (t_write (tr n)) /\ needed x n)).
  { intros x Hx. apply live_before_in in Hx as [[Hx Hw] | Hx]; auto. right. split; auto. eapply after_needed; eauto. }
  constructor.
  - intros m Hm Hwl. assert (Hs : forall p, edge g m p -> p <> n) by (intros p He ->; apply Hwl, P2; now apply upstream_in).
    assert (Eq : forall x, (exists p, edge g m p /\ In x (l_in r p)) <-> exists p, edge g m p /\ In x (l_in (new_in r n) p)).
    { intros x. split; intros (p & He & Hp); exists p; split; auto; pose proof (Hs p He); simpl in *; [rewrite setn_other | rewrite setn_other in Hp]; auto. }
    destruct (gnode_dec m n) as [-> | Hne].
    + exists (live_after g r n). simpl. rewrite !setn_same. split; auto. split; [|tauto]. intros x. rewrite live_after_in. apply Eq.
    + simpl in Hm. rewrite setn_other in Hm by auto. destruct (i_settled _ _ _ I m Hm) as (o & S1 & S2 & S3); [intros [X | X]; [congruence | apply Hwl, P1; auto]|].
      exists o. simpl. rewrite !setn_other by auto. split; auto. split; auto. intros x. rewrite S2. apply Eq.
  - intros m x Hx. simpl in Hx. destruct (gnode_dec m n) as [-> | Hne]; [rewrite setn_same in Hx; auto | rewrite setn_other in Hx by auto; eapply i_in; eauto].
  - intros m o x Ho Hx. simpl in Ho. destruct (gnode_dec m n) as [-> | Hne]; [|rewrite setn_other in Ho by auto; eapply i_out; eauto].
    rewrite setn_same in Ho. injection Ho as <-. eapply after_needed; eauto.
  - intros m x Hx. assert (X : In x (live_before tr m (live_after g r m))).
    { simpl in Hx. destruct (gnode_dec m n) as [-> | Hne]; [now rewrite setn_same in Hx | rewrite setn_other in Hx by auto; eapply i_grow; eauto]. }
    apply live_before_in in X. apply live_before_in. destruct X as [[X Y] | X]; auto. left. split; auto.
    apply live_after_in in X as (p & He & Hp). apply live_after_in. exists p. split; auto. eapply in_mono; eauto.
  - split; [|apply push_nodup; now inversion W2]. intros m Hm. apply P3 in Hm as [Hm | Hm]; [apply W1; simpl; auto|]. apply upstream_in in Hm. now apply (Hc m n).
  - intros m x Hx. simpl in Hx. destruct (gnode_dec m n) as [-> | Hne]; [|rewrite setn_other in Hx by auto; eapply i_dom; eauto].
    rewrite setn_same in Hx. split; auto. destruct (HB x Hx) as [X | [_ X]]; [apply in_flat_map; eauto | now apply needed_read_var in X].
Qed.
Lemma lloop_ok S fuel : forall wl r r', linv S wl r -> lloop fuel wl r = Some r' -> linv S [] r'.
Proof.
  induction fuel as [|fuel IH]; intros [|n wl] r r' I E; try (simpl in E; injection E as <-; auto; fail); [discriminate|].
  rewrite lloop_eq in E. destruct (eq_vset _ _) eqn:B; eapply IH; try exact E; [now apply step_same | now apply step_new].
Qed.

(* ---- it ends ---- *)
Definition pairs : list (gnode * var) := list_prod (g_nodes g) vars_read.
Definition size (r : lres) : nat := length (filter (fun p => mem (snd p) (l_in r (fst p))) pairs).
Lemma filter_le {A} (p q : A -> bool) l : (forall a, p a = true -> q a = true) -> length (filter p l) <= length (filter q l).
Proof.
  intros H. induction l as [|a l IH]; simpl; auto. destruct (p a) eqn:P; [rewrite (H a P); simpl; lia|]. destruct (q a); simpl; lia.
Qed.
Lemma filter_lt {A} (p q : A -> bool) l a : (forall a, p a = true -> q a = true) -> In a l -> p a = false -> q a = true -> length (filter p l) < length (filter q l).
Proof.
  intros H. induction l as [|b l IH]; intros Hin Hp Hq; [destruct Hin|]; destruct Hin as [-> | Hi]; simpl.
  - rewrite Hp, Hq. simpl. pose proof (filter_le p q l H). lia.
  - specialize (IH Hi Hp Hq). destruct (p b) eqn:P; [rewrite (H b P); simpl; lia|]. destruct (q b); simpl; lia.
Qed.
Lemma size_le r : size r <= length pairs.
Proof. unfold size. induction pairs as [|a l IH]; simpl; auto. destruct (mem _ _); simpl; lia. Qed.
Lemma size_same r n : size (same_in r n) = size r.
Proof. reflexivity. Qed.
Lemma size_new S n wl r : linv S (n :: wl) r -> eq_vset (live_before tr n (live_after g r n)) (l_in r n) = false -> size r < size (new_in r n).
Proof.
  intros I B. assert (X : exists x, In x (live_before tr n (live_after g r n)) /\ ~ In x (l_in r n)).
  { unfold eq_vset in B. assert (B2 : sub_vset (l_in r n) (live_before tr n (live_after g r n)) = true) by (apply sub_vset_ok; intros x; apply (i_grow _ _ _ I)).
    rewrite B2, andb_true_r in B. unfold sub_vset in B. clear B2. induction (live_before tr n (live_after g r n)) as [|y l IH]; [discriminate|].
    simpl in B. apply andb_false_iff in B as [B | B]; [exists y; split; [simpl; auto | now apply mem_not]|]. destruct (IH B) as (x & H1 & H2). exists x. split; simpl; auto. }
  destruct X as (x & H1 & H2). unfold size. apply (filter_lt _ _ _ (n, x)).
  - intros [m y] Hy. apply mem_in in Hy. apply mem_in. eapply in_mono; eauto.
  - apply in_prod_iff. apply (i_dom _ _ _ (step_new _ _ _ _ I)). simpl. now rewrite setn_same.
  - simpl. now apply mem_not.
  - simpl. rewrite setn_same. now apply mem_in.
Qed.
Lemma lloop_ends S fuel : forall wl r, linv S wl r ->
  (length pairs - size r) * (length (g_nodes g) + 1) + length wl <= fuel -> lloop fuel wl r <> None.
Proof.
  induction fuel as [|fuel IH]; intros [|n wl] r I H; try discriminate; [assert (length (n :: wl) <= 0) by (eapply Nat.le_trans; [|exact H]; apply Nat.le_add_l); cbn [length] in *; lia|].
  rewrite lloop_eq. destruct (eq_vset _ _) eqn:B.
  - apply IH; [now apply step_same|]. pose proof (size_same r n) as E. unfold same_in in E. rewrite E. cbn [length] in H. lia.
  - apply IH; [now apply step_new|]. pose proof (size_new _ _ _ _ I B) as L. pose proof (size_le (new_in r n)) as L2. fold (new_in r n).
    destruct (i_wl _ _ _ (step_new _ _ _ _ I)) as [W1 W2]. pose proof (NoDup_incl_length W2 W1) as L3.
    remember (size r) as a. remember (size (new_in r n)) as b. remember (length pairs) as c. remember (length (g_nodes g)) as d.
    assert ((c - b + 1) * (d + 1) <= (c - a) * (d + 1)) by (apply Nat.mul_le_mono_r; lia). cbn [length] in H. lia.
Qed.
End Loop.

Section Result.
Variable f : func.
Let g := build f.
Let tr := transfer_of f.
Lemma linv0 : linv g tr (fun n => In n (postorder g)) (postorder g) l0.
Proof.
  destruct (postorder_ok g (build_closed f) (start_node f)) as (H2 & H1 & _). constructor; simpl; try (intros; contradiction).
  - intros n [H | H] Hn; [contradiction | congruence].
  - discriminate.
  - split; auto. intros n Hn. apply H2 in Hn. destruct Hn as [|b c _ He]; [apply start_node | now apply (build_closed f b c)].
Qed.
Theorem lsolve_ends fuel : S (length (pairs g tr)) * (length (g_nodes g) + 1) <= fuel -> lsolve f fuel <> None.
Proof.
  intros H. unfold lsolve. eapply lloop_ends; [apply build_closed | apply linv0 |].
  destruct (i_wl _ _ _ _ _ linv0) as [W1 W2]. pose proof (NoDup_incl_length W2 W1) as X. change (build f) with g. change (transfer_of f) with tr.
  assert ((length (pairs g tr) - size g tr l0) * (length (g_nodes g) + 1) <= length (pairs g tr) * (length (g_nodes g) + 1)) by (apply Nat.mul_le_mono_r; lia). rewrite Nat.mul_succ_l in H. lia.
Qed.
Theorem lsolve_exact fuel r : lsolve f fuel = Some r -> forall n, leads g NStart n ->
  exists o, l_out r n = Some o /\ forall x, In x o <-> needed_after g tr x n.
Proof.
  intros E. pose proof (lloop_ok g tr (build_closed f) _ fuel _ _ _ linv0 E) as I.
  destruct (postorder_ok g (build_closed f) (start_node f)) as (H2 & _ & _).
  assert (S : forall n, leads g NStart n -> settled g tr r n) by (intros n Hn; apply I; [left; now apply H2 | auto]).
  intros n Hn. destruct (S n Hn) as (o & S1 & S2 & S3). exists o. split; auto. intros x. split; [apply (i_out _ _ _ _ _ I n o x S1)|].
  intros Hx. clear S1 S3. revert o Hn S2. induction Hx as [n m He Hr | n m He Hw Hx IH]; intros o Hn S2; apply S2; exists m; split; auto;
    assert (Hm : leads g NStart m) by (eapply leads_edge; eauto); destruct (S m Hm) as (o' & T1 & T2 & T3); apply T3, live_before_in; [auto|].
  left. split; auto.
Qed.
(* Where there is no result, there is nothing to move. *)
Theorem lsolve_some fuel r : lsolve f fuel = Some r -> forall n o, l_out r n = Some o -> (forall x, In x o -> needed_after g tr x n) /\ (forall x, needed_after g tr x n -> leads g NStart n -> In x o).
Proof.
  intros E n o Ho. pose proof (lloop_ok g tr (build_closed f) _ fuel _ _ _ linv0 E) as I. split; [intros x; apply (i_out _ _ _ _ _ I n o x Ho)|].
  intros x Hx Hl. destruct (lsolve_exact fuel r E n Hl) as (o' & Ho' & H). assert (o' = o) by congruence. subst. now apply H.
Qed.
End Result.
