(* Reaching updates: the iteration terminates and computes exactly the updates that arrive at each node. *)
From Coq Require Import List Arith Bool ZArith Lia.
From Verif Require Import OptModel OptSpec.
Import ListNotations.

Lemma mem_in x l : mem x l = true <-> In x l.
Proof.
  unfold mem. rewrite existsb_exists. split.
  - intros (y & Hy & E). apply Nat.eqb_eq in E. now subst.
  - intros H. exists x. split; auto. apply Nat.eqb_refl.
Qed.
Lemma list_nat_eqb_ok a b : list_nat_eqb a b = true <-> a = b.
Proof. unfold list_nat_eqb. destruct (list_eq_dec Nat.eq_dec a b); split; intros; auto; discriminate. Qed.
Lemma gnode_eqb_ok a b : gnode_eqb a b = true <-> a = b.
Proof.
  destruct a, b; simpl; try (split; intros; discriminate || auto; fail);
    rewrite ?andb_true_iff, ?Nat.eqb_eq, ?list_nat_eqb_ok; split; intros H; try (now inversion H); subst; auto.
  destruct H as [-> ->]. auto.
Qed.
Lemma gnode_eqb_refl a : gnode_eqb a a = true.
Proof. now apply gnode_eqb_ok. Qed.
Lemma gnode_eqb_no a b : gnode_eqb a b = false <-> a <> b.
Proof.
  split.
  - intros H E. subst. rewrite gnode_eqb_refl in H. discriminate.
  - intros H. destruct (gnode_eqb a b) eqn:E; auto. apply gnode_eqb_ok in E. contradiction.
Qed.
Lemma gnode_dec (a b : gnode) : {a = b} + {a <> b}.
Proof.
  destruct (gnode_eqb a b) eqn:E.
  - left. now apply gnode_eqb_ok.
  - right. now apply gnode_eqb_no.
Qed.
Lemma memn_in n l : memn n l = true <-> In n l.
Proof.
  unfold memn. rewrite existsb_exists. split.
  - intros (y & Hy & E). apply gnode_eqb_ok in E. now subst.
  - intros H. exists n. split; auto. apply gnode_eqb_refl.
Qed.
Lemma memf_in p l : memf p l = true <-> In p l.
Proof.
  unfold memf. rewrite existsb_exists. split.
  - intros ((y, m) & Hy & E). apply andb_true_iff in E as [E1 E2].
    apply Nat.eqb_eq in E1. apply gnode_eqb_ok in E2. destruct p; simpl in *. now subst.
  - intros H. exists p. split; auto. now rewrite Nat.eqb_refl, gnode_eqb_refl.
Qed.
Lemma sub_facts_ok a b : sub_facts a b = true <-> incl a b.
Proof.
  unfold sub_facts. rewrite forallb_forall. unfold incl.
  split; intros H x Hx; specialize (H x Hx); now apply memf_in.
Qed.
Lemma eq_facts_ok a b : eq_facts a b = true <-> (forall q, In q a <-> In q b).
Proof.
  unfold eq_facts. rewrite andb_true_iff, !sub_facts_ok. unfold incl. firstorder.
Qed.
Lemma upstream_in g n p : In p (upstream g n) <-> edge g p n.
Proof.
  unfold upstream, edge. rewrite in_map_iff. split.
  - intros ((a, b) & <- & H). apply filter_In in H as [H E]. simpl in *. apply gnode_eqb_ok in E. now subst.
  - intros H. exists (p, n). split; auto. apply filter_In. split; auto. simpl. apply gnode_eqb_refl.
Qed.
Lemma downstream_in g n p : In p (downstream g n) <-> edge g n p.
Proof.
  unfold downstream, edge. rewrite in_map_iff. split.
  - intros ((a, b) & <- & H). apply filter_In in H as [H E]. simpl in *. apply gnode_eqb_ok in E. now subst.
  - intros H. exists (n, p). split; auto. apply filter_In. split; auto. simpl. apply gnode_eqb_refl.
Qed.

Definition kills_p (gen : gnode -> list var) (n : gnode) (x : var) : Prop :=
  In x (gen n) \/ exists k scope, n = NEnd k scope /\ In x scope.
Lemma kills_ok gen n x : kills gen n x = true <-> kills_p gen n x.
Proof.
  unfold kills, kills_p. rewrite orb_true_iff, mem_in. split; intros [H | H]; auto.
  - right. destruct n; try discriminate. apply mem_in in H. eauto.
  - destruct H as (k & sc & -> & H). right. now apply mem_in.
Qed.
Lemma kills_no gen n x : kills gen n x = false <-> ~ kills_p gen n x.
Proof. rewrite <- kills_ok. now destruct (kills gen n x). Qed.
Lemma not_kills_p gen n x :
  ~ kills_p gen n x <-> ~ In x (gen n) /\ (forall k scope, n = NEnd k scope -> ~ In x scope).
Proof.
  unfold kills_p. split.
  - intros H. split; [tauto|]. intros k sc -> HI. apply H. right. eauto.
  - intros [H1 H2] [H | (k & sc & -> & H)]; [tauto|]. eapply H2; eauto.
Qed.

Lemma flow_sweep_cons g gen n r d : flow_sweep g gen (n :: r) d =
  let (d, ch) := flow_node g gen n d in let (d, ch') := flow_sweep g gen r d in (d, ch || ch').
Proof. reflexivity. Qed.

Section Flow.
Variable g : graph.
Variable gen : gnode -> list var.

Definition fin (d : dflow) := d_in d.

(* What holds of the facts at any time. *)
Record inv (d : dflow) : Prop := {
  i_in : forall n x p, In (x, p) (d_in d n) -> In x (gen p) /\ arrives g gen x p n;
  i_kill : forall n q, In q (d_kill d n) -> kills_p gen n (fst q);
  i_out : forall n x p, In (x, p) (d_out d n) -> In x (gen p) /\ (p = n \/ arrives g gen x p n /\ ~ kills_p gen n x);
  i_in_le : forall n q, In q (d_in d n) -> exists m, edge g m n /\ In q (d_out d m);
  i_kill_le : forall n q, In q (d_kill d n) -> In q (d_in d n);
  i_out_le : forall n q, In q (d_out d n) ->
     In q (map (fun x => (x, n)) (gen n)) \/ In q (d_in d n) /\ ~ kills_p gen n (fst q)
}.

Lemma inv0 : inv d0.
Proof. constructor; simpl; tauto. Qed.

(* The facts grow. *)
Definition le (d d' : dflow) : Prop :=
  forall n, incl (d_in d n) (d_in d' n) /\ incl (d_kill d n) (d_kill d' n) /\ incl (d_out d n) (d_out d' n).

Lemma le_refl d : le d d.
Proof. intros n. repeat split; apply incl_refl. Qed.
Lemma le_trans a b c : le a b -> le b c -> le a c.
Proof. intros H1 H2 n. destruct (H1 n) as (?&?&?), (H2 n) as (?&?&?). repeat split; eapply incl_tran; eauto. Qed.

Lemma flow_node_inv n d d' ch :
  inv d -> flow_node g gen n d = (d', ch) -> inv d' /\ le d d'.
Proof.
  intros I E. unfold flow_node in E. cbv zeta in E.
  set (new_in := flat_map (d_out d) (upstream g n)) in *.
  set (ch1 := negb (eq_facts (d_in d n) new_in)) in *.
  set (in_ := if ch1 then new_in else d_in d n) in *.
  set (killed := filter (fun p => kills gen n (fst p)) in_) in *.
  set (kill := filter (fun p => negb (memf p (d_kill d n))) killed ++ d_kill d n) in *.
  set (new_out := map (fun x => (x, n)) (gen n) ++ filter (fun p => negb (memf p kill)) in_) in *.
  set (ch3 := negb (eq_facts (d_out d n) new_out)) in *.
  set (out := if ch3 then new_out else d_out d n) in *.
  injection E as <- _.
  assert (Hin : forall q, In q in_ <-> In q new_in).
  { intros q. subst in_. destruct ch1 eqn:E1; [tauto|]. subst ch1. apply negb_false_iff in E1.
    rewrite eq_facts_ok in E1. apply E1. }
  assert (Hni : forall q, In q new_in <-> exists m, edge g m n /\ In q (d_out d m)).
  { intros q. subst new_in. rewrite in_flat_map. split; intros (m & H1 & H2); exists m; split; auto;
      now apply upstream_in. }
  assert (Hin_old : incl (d_in d n) in_).
  { intros q Hq. apply Hin, Hni. now apply (i_in_le d I). }
  assert (Hkd : forall q, In q killed <-> In q in_ /\ kills_p gen n (fst q)).
  { intros q. subst killed. rewrite filter_In. now rewrite kills_ok. }
  assert (Hk : forall q, In q kill <-> In q killed).
  { intros q. subst kill. rewrite in_app_iff, filter_In. split.
    - intros [[H _] | H]; auto. apply Hkd. split; [|now apply (i_kill d I)].
      apply Hin_old. now apply (i_kill_le d I).
    - intros H. destruct (memf q (d_kill d n)) eqn:Em; [right; now apply memf_in | left; auto]. }
  assert (Hno : forall q, In q new_out <-> In q (map (fun x => (x, n)) (gen n)) \/ In q in_ /\ ~ kills_p gen n (fst q)).
  { intros q. subst new_out. rewrite in_app_iff, filter_In. split; intros [H | [H1 H2]]; auto; right; split; auto.
    - intros Hkl. apply negb_true_iff in H2. assert (memf q kill = true) by (apply memf_in, Hk, Hkd; auto). congruence.
    - apply negb_true_iff. destruct (memf q kill) eqn:Em; auto. apply memf_in, Hk, Hkd in Em. tauto. }
  assert (Hout : forall q, In q out <-> In q new_out).
  { intros q. subst out. destruct ch3 eqn:E3; [tauto|]. subst ch3. apply negb_false_iff in E3.
    rewrite eq_facts_ok in E3. apply E3. }
  assert (Hout_old : incl (d_out d n) out).
  { intros q Hq. apply Hout, Hno. destruct (i_out_le d I n q Hq) as [H | [H1 H2]]; auto. }
  assert (Hup : forall (h : gnode -> facts) v m q, In q (upd h n v m) -> m = n /\ In q v \/ m <> n /\ In q (h m)).
  { intros h v m q H. unfold upd in H. destruct (gnode_eqb m n) eqn:Em.
    - apply gnode_eqb_ok in Em. auto.
    - apply gnode_eqb_no in Em. auto. }
  assert (Hup_in : forall (h : gnode -> facts) v m q, incl (h n) v -> In q (h m) -> In q (upd h n v m)).
  { intros h v m q Hi H. unfold upd. destruct (gnode_eqb m n) eqn:Em; auto. apply gnode_eqb_ok in Em. subst. auto. }
  assert (Harr : forall x p, In (x, p) in_ -> In x (gen p) /\ arrives g gen x p n).
  { intros x p H. apply Hin, Hni in H as (m & He & Hm).
    destruct (i_out d I m x p Hm) as [Hg [-> | [Ha Hnk]]]; split; auto.
    - now constructor.
    - apply not_kills_p in Hnk as [? ?]. eapply arr_step; eauto. }
  split.
  - constructor; simpl.
    + intros m x p H. apply Hup in H as [[-> H] | [_ H]]; auto. now apply (i_in d I).
    + intros m q H. apply Hup in H as [[-> H] | [_ H]]; [|now apply (i_kill d I)]. now apply Hk, Hkd in H.
    + intros m x p H. apply Hup in H as [[-> H] | [_ H]]; [|now apply (i_out d I)].
      apply Hout, Hno in H as [H | [H Hnk]].
      * apply in_map_iff in H as (y & E & Hy). injection E as -> <-. auto.
      * destruct (Harr x p H). simpl in Hnk. auto.
    + intros m q H. apply Hup in H as [[-> H] | [_ H]].
      * apply Hin, Hni in H as (m & He & Hm). exists m. split; auto.
      * destruct (i_in_le d I m q H) as (m' & He & Hm). exists m'. split; auto.
    + intros m q H. apply Hup in H as [[-> H] | [Hm H]].
      * apply Hk, Hkd in H as [H _]. unfold upd. now rewrite gnode_eqb_refl.
      * apply Hup_in; auto. now apply (i_kill_le d I).
    + intros m q H. apply Hup in H as [[-> H] | [Hm H]].
      * unfold upd. rewrite gnode_eqb_refl. now apply Hno, Hout.
      * destruct (i_out_le d I m q H) as [? | [? ?]]; auto.
  - intros m. simpl. repeat split; intros q Hq; apply Hup_in; auto.
    intros q' Hq'. apply Hk, Hkd. split; [apply Hin_old; now apply (i_kill_le d I) | now apply (i_kill d I)].
Qed.

(* If nothing changed, the node's equations hold. *)
Lemma flow_node_same n d d' :
  inv d -> flow_node g gen n d = (d', false) ->
  (forall m, d_in d' m = d_in d m /\ d_out d' m = d_out d m) /\
  (forall q m, edge g m n -> In q (d_out d m) -> In q (d_in d n)) /\
  (forall x, In x (gen n) -> In (x, n) (d_out d n)) /\
  (forall q, In q (d_in d n) -> ~ kills_p gen n (fst q) -> In q (d_out d n)).
Proof.
  intros I E. unfold flow_node in E. cbv zeta in E. injection E as <- E.
  apply orb_false_iff in E as [E E3]. apply orb_false_iff in E as [E1 E2].
  rewrite E1 in *. rewrite E3 in *. simpl. apply negb_false_iff in E1, E3.
  rewrite eq_facts_ok in E1, E3. repeat split.
  - intros. unfold upd. destruct (gnode_eqb m n) eqn:Em; auto. apply gnode_eqb_ok in Em. now subst.
  - intros. unfold upd. destruct (gnode_eqb m n) eqn:Em; auto. apply gnode_eqb_ok in Em. now subst.
  - intros q m He Hm. apply E1. apply in_flat_map. exists m. split; auto. now apply upstream_in.
  - intros x Hx. apply E3. apply in_app_iff. left. apply in_map_iff. eauto.
  - intros q Hq Hk. apply E3. apply in_app_iff. right. apply filter_In. split; auto.
    apply negb_true_iff. match goal with |- ?b = false => destruct b eqn:Em end; auto.
    apply memf_in in Em. apply in_app_iff in Em as [Em | Em].
    + apply filter_In in Em as [Em _]. apply filter_In in Em as [_ Em]. apply kills_ok in Em. contradiction.
    + now apply (i_kill d I) in Em.
Qed.

Lemma flow_sweep_inv ns : forall d d' ch,
  inv d -> flow_sweep g gen ns d = (d', ch) -> inv d' /\ le d d'.
Proof.
  induction ns as [|n ns IH]; intros d d' ch I E; [cbn in E|rewrite flow_sweep_cons in E].
  - injection E as <- <-. split; auto. apply le_refl.
  - destruct (flow_node g gen n d) as [d1 c1] eqn:E1. destruct (flow_sweep g gen ns d1) as [d2 c2] eqn:E2.
    injection E as <- <-. destruct (flow_node_inv _ _ _ _ I E1) as [I1 L1].
    destruct (IH _ _ _ I1 E2) as [I2 L2]. split; auto. eapply le_trans; eauto.
Qed.

Definition solved (d : dflow) (n : gnode) : Prop :=
  (forall q m, edge g m n -> In q (d_out d m) -> In q (d_in d n)) /\
  (forall x, In x (gen n) -> In (x, n) (d_out d n)) /\
  (forall q, In q (d_in d n) -> ~ kills_p gen n (fst q) -> In q (d_out d n)).

Lemma solved_ext d d' n :
  (forall m, d_in d' m = d_in d m /\ d_out d' m = d_out d m) -> solved d' n -> solved d n.
Proof.
  intros E (H1 & H2 & H3). destruct (E n) as [E1 E2]. repeat split.
  - intros q m. rewrite <- E1. destruct (E m) as [_ <-]. apply H1.
  - intros x. rewrite <- E2. apply H2.
  - intros q. rewrite <- E1, <- E2. apply H3.
Qed.

Lemma flow_sweep_same ns : forall d d',
  inv d -> flow_sweep g gen ns d = (d', false) ->
  (forall m, d_in d' m = d_in d m /\ d_out d' m = d_out d m) /\ (forall n, In n ns -> solved d n).
Proof.
  induction ns as [|n ns IH]; intros d d' I E; [cbn in E|rewrite flow_sweep_cons in E].
  - injection E as <-. split; auto. simpl. tauto.
  - destruct (flow_node g gen n d) as [d1 c1] eqn:E1. destruct (flow_sweep g gen ns d1) as [d2 c2] eqn:E2.
    injection E as <- E. apply orb_false_iff in E as [-> ->].
    destruct (flow_node_inv _ _ _ _ I E1) as [I1 _].
    destruct (flow_node_same _ _ _ I E1) as [S1 S2].
    destruct (IH _ _ I1 E2) as [S3 S4]. split.
    + intros m. destruct (S1 m), (S3 m). split; congruence.
    + intros m [<- | Hm]; [exact S2|]. eapply solved_ext; eauto.
Qed.

Lemma flow_solve_ok order : forall fuel d d',
  inv d -> flow_solve fuel g gen order d = Some d' -> inv d' /\ (forall n, In n order -> solved d' n).
Proof.
  induction fuel as [|k IH]; simpl; intros d d' I E; [discriminate|].
  destruct (flow_sweep g gen order d) as [d1 [|]] eqn:E1.
  - destruct (flow_sweep_inv _ _ _ _ I E1) as [I1 _]. exact (IH _ _ I1 E).
  - injection E as <-. destruct (flow_sweep_inv _ _ _ _ I E1) as [I1 _]. split; auto.
    destruct (flow_sweep_same _ _ _ I E1) as [S1 S2]. intros n Hn.
    eapply solved_ext; [|apply S2; auto]. intros m. destruct (S1 m). split; congruence.
Qed.

(* Exactness. *)
Lemma flow_exact order fuel d :
  closed g -> (forall n, In n order <-> In n (g_nodes g)) ->
  flow_solve fuel g gen order d0 = Some d ->
  forall n x p, In (x, p) (d_in d n) <-> In x (gen p) /\ arrives g gen x p n /\ True.
Proof.
  intros C O E n x p. destruct (flow_solve_ok _ _ _ _ inv0 E) as [I S]. split.
  - intros H. destruct (i_in d I n x p H). auto.
  - intros (Hg & Ha & _). induction Ha as [n He | m n Ha IH Hng Hns He].
    + destruct (S n) as (S1 & _ & _); [apply O; now apply (C p n)|]. eapply S1; eauto.
      destruct (S p) as (_ & S2 & _); [apply O; now apply (C p n)|]. auto.
    + destruct (S n) as (S1 & _ & _); [apply O; now apply (C m n)|]. eapply S1; eauto.
      destruct (S m) as (_ & _ & S3); [apply O; now apply (C m n)|]. apply S3; auto.
      simpl. apply not_kills_p. auto.
Qed.

(* ---- termination ---- *)
Definition count (U l : facts) : nat := length (filter (fun q => memf q l) U).
Fixpoint measure (U : facts) (order : list gnode) (d : dflow) : nat :=
  match order with
  | [] => 0
  | n :: r => count U (d_in d n) + count U (d_kill d n) + count U (d_out d n) + measure U r d
  end.
Lemma count_le U l : count U l <= length U.
Proof. unfold count. induction U; simpl; auto. destruct (memf a l); simpl; lia. Qed.
Lemma count_mono U l l' : incl l l' -> count U l <= count U l'.
Proof.
  intros H. unfold count. induction U as [|q U IH]; simpl; auto.
  destruct (memf q l) eqn:E.
  - assert (memf q l' = true) as -> by (apply memf_in, H, memf_in; auto). simpl. lia.
  - destruct (memf q l'); simpl; lia.
Qed.
Lemma count_lt U l l' q : incl l l' -> In q U -> ~ In q l -> In q l' -> count U l < count U l'.
Proof.
  intros H HU Hn Hq. unfold count. induction U as [|u U IH]; simpl in *; [tauto|].
  destruct HU as [-> | HU].
  - assert (memf q l = false) as -> by (destruct (memf q l) eqn:E; auto; apply memf_in in E; contradiction).
    assert (memf q l' = true) as -> by (now apply memf_in). simpl.
    pose proof (count_mono U l l' H). unfold count in *. lia.
  - specialize (IH HU). destruct (memf u l) eqn:E.
    + assert (memf u l' = true) as -> by (apply memf_in, H, memf_in; auto). simpl. lia.
    + destruct (memf u l'); simpl; lia.
Qed.
Lemma measure_le U order d : measure U order d <= 3 * length order * length U.
Proof.
  induction order as [|n r IH]; simpl; auto.
  pose proof (count_le U (d_in d n)). pose proof (count_le U (d_kill d n)). pose proof (count_le U (d_out d n)).
  nia.
Qed.
Lemma measure_mono U order d d' : le d d' -> measure U order d <= measure U order d'.
Proof.
  intros H. induction order as [|n r IH]; simpl; auto. destruct (H n) as (H1 & H2 & H3).
  pose proof (count_mono U _ _ H1). pose proof (count_mono U _ _ H2). pose proof (count_mono U _ _ H3). lia.
Qed.
Lemma measure_lt U order d d' n q :
  le d d' -> In n order -> In q U ->
  (In q (d_in d' n) /\ ~ In q (d_in d n) \/ In q (d_kill d' n) /\ ~ In q (d_kill d n) \/
   In q (d_out d' n) /\ ~ In q (d_out d n)) ->
  measure U order d < measure U order d'.
Proof.
  intros H Hn HU Hq. induction order as [|m r IH]; simpl in *; [tauto|]. destruct (H m) as (H1 & H2 & H3).
  pose proof (count_mono U _ _ H1). pose proof (count_mono U _ _ H2). pose proof (count_mono U _ _ H3).
  pose proof (measure_mono U r _ _ H).
  destruct Hn as [-> | Hn]; [|specialize (IH Hn); lia].
  destruct Hq as [[A B] | [[A B] | [A B]]].
  - pose proof (count_lt U _ _ q H1 HU B A). lia.
  - pose proof (count_lt U _ _ q H2 HU B A). lia.
  - pose proof (count_lt U _ _ q H3 HU B A). lia.
Qed.

Lemma not_eq_facts a b : incl a b -> eq_facts a b = false -> exists q, In q b /\ ~ In q a.
Proof.
  intros H E. unfold eq_facts in E. apply andb_false_iff in E as [E | E].
  - assert (sub_facts a b = true) by (now apply sub_facts_ok). congruence.
  - revert E. clear H. unfold sub_facts. induction b as [|q b IH]; simpl; [discriminate|].
    intros E. apply andb_false_iff in E as [E | E].
    + exists q. split; auto. intros Hq. apply memf_in in Hq. congruence.
    + destruct (IH E) as (q' & ? & ?). eauto.
Qed.
Lemma not_sub_facts a b : sub_facts b a = false -> exists q, In q b /\ ~ In q a.
Proof.
  unfold sub_facts. induction b as [|q b IH]; simpl; [discriminate|].
  intros E. apply andb_false_iff in E as [E | E].
  - exists q. split; auto. intros Hq. apply memf_in in Hq. congruence.
  - destruct (IH E) as (q' & ? & ?). eauto.
Qed.

Variable U : facts.
Hypothesis HU : forall x p, In x (gen p) -> In p (g_nodes g) -> In (x, p) U.
Hypothesis Hc : closed g.

Lemma arrives_src x p n : arrives g gen x p n -> In p (g_nodes g).
Proof. induction 1 as [n H | m n H IH _ _ He]; auto. now apply (Hc p n). Qed.

Lemma flow_node_lt order n d d' :
  inv d -> In n order -> In n (g_nodes g) -> flow_node g gen n d = (d', true) ->
  measure U order d < measure U order d'.
Proof.
  intros I Hn Hg E. destruct (flow_node_inv _ _ _ _ I E) as [I' L].
  destruct (L n) as (L1 & L2 & L3).
  assert (HQ : exists q, In q (d_in d' n) /\ ~ In q (d_in d n) \/ In q (d_kill d' n) /\ ~ In q (d_kill d n) \/
   In q (d_out d' n) /\ ~ In q (d_out d n)).
  { unfold flow_node in E. cbv zeta in E.
    set (new_in := flat_map (d_out d) (upstream g n)) in *.
    set (ch1 := negb (eq_facts (d_in d n) new_in)) in *.
    set (in_ := if ch1 then new_in else d_in d n) in *.
    set (killed := filter (fun p => kills gen n (fst p)) in_) in *.
    set (kill := filter (fun p => negb (memf p (d_kill d n))) killed ++ d_kill d n) in *.
    set (new_out := map (fun x => (x, n)) (gen n) ++ filter (fun p => negb (memf p kill)) in_) in *.
    set (ch3 := negb (eq_facts (d_out d n) new_out)) in *.
    set (out := if ch3 then new_out else d_out d n) in *.
    injection E as <- E. simpl in *. unfold upd in *. rewrite gnode_eqb_refl in *.
    destruct ch1 eqn:E1.
    - subst ch1. apply negb_true_iff in E1. destruct (not_eq_facts _ _ L1 E1) as (q & ? & ?). exists q. auto.
    - simpl in E. destruct (sub_facts killed (d_kill d n)) eqn:E2; simpl in E.
      + subst ch3. apply negb_true_iff in E. subst out. rewrite E in *. simpl in *.
        destruct (not_eq_facts _ _ L3 E) as (q & ? & ?). exists q. auto.
      + destruct (not_sub_facts _ _ E2) as (q & Hq1 & Hq2). exists q. right. left. split; auto.
        subst kill. apply in_app_iff. left. apply filter_In. split; auto.
        apply negb_true_iff. destruct (memf q (d_kill d n)) eqn:Em; auto. apply memf_in in Em. contradiction. }
  destruct HQ as ((x, p) & HQ). eapply measure_lt; eauto.
  assert (In x (gen p) /\ (p = n \/ arrives g gen x p n)) as [Hx [-> | Ha]].
  { destruct HQ as [[A _] | [[A _] | [A _]]].
    - destruct (i_in d' I' _ _ _ A). auto.
    - apply (i_kill_le d' I') in A. destruct (i_in d' I' _ _ _ A). auto.
    - destruct (i_out d' I' _ _ _ A) as [? [? | [? ?]]]; auto. }
  - auto.
  - apply HU; auto. eapply arrives_src; eauto.
Qed.

Lemma flow_sweep_lt order ns : forall d d',
  inv d -> incl ns order -> (forall n, In n ns -> In n (g_nodes g)) -> flow_sweep g gen ns d = (d', true) ->
  measure U order d < measure U order d'.
Proof.
  induction ns as [|n ns IH]; intros d d' I Hi Hg E; [discriminate|]. rewrite flow_sweep_cons in E.
  destruct (flow_node g gen n d) as [d1 c1] eqn:E1. destruct (flow_sweep g gen ns d1) as [d2 c2] eqn:E2.
  injection E as <- E.
  destruct (flow_node_inv _ _ _ _ I E1) as [I1 L1]. destruct (flow_sweep_inv _ _ _ _ I1 E2) as [I2 L2].
  destruct c1.
  - assert (measure U order d < measure U order d1).
    { eapply flow_node_lt; eauto; [apply Hi, in_eq | apply Hg, in_eq]. }
    pose proof (measure_mono U order _ _ L2). lia.
  - simpl in E. subst c2. pose proof (measure_mono U order _ _ L1).
    assert (measure U order d1 < measure U order d2); [|lia].
    eapply IH; eauto; intros m Hm; [apply Hi | apply Hg]; now right.
Qed.

Lemma flow_solve_terminates order : forall fuel d,
  inv d -> (forall n, In n order -> In n (g_nodes g)) ->
  3 * length order * length U < fuel + measure U order d -> flow_solve fuel g gen order d <> None.
Proof.
  induction fuel as [|k IH]; intros d I Hg Hf.
  - pose proof (measure_le U order d). lia.
  - simpl. destruct (flow_sweep g gen order d) as [d1 [|]] eqn:E1; [|discriminate].
    apply IH; auto.
    + destruct (flow_sweep_inv _ _ _ _ I E1). auto.
    + assert (measure U order d < measure U order d1); [|lia].
      eapply flow_sweep_lt; eauto. apply incl_refl.
Qed.
End Flow.
