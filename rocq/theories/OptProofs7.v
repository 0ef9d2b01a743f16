(* Where edges lead to. *)
From Coq Require Import List Arith Bool ZArith Lia.
From Verif Require Import OptModel OptSpec OptProofs1 OptProofs2 OptProofs3 OptProofs4 OptProofs5.
Import ListNotations.

Definition own (s : stmt) : list gnode := map fst (info_stmt s).
Definition owns (ss : stmts) : list gnode := map fst (info ss).
Definition meta' (n : gnode) : Prop := is_meta n = true /\ n <> NStart.

Section Tgt.
Variable e : gnode.
Variable He : meta' e.
(* New edges lead to one of the nodes or to a meta node. *)
Definition tg (N : list gnode) (c c' : cst) : Prop :=
  forall a b, In (a, b) (c_edges c') -> In (a, b) (c_edges c) \/ In b N \/ meta' b.
Lemma tg_refl N c : tg N c c.
Proof. intros a b. auto. Qed.
Lemma tg_trans N M c c1 c2 : tg N c c1 -> incl N M -> tg M c1 c2 -> tg M c c2.
Proof.
  intros H HI H' a b Hi. destruct (H' a b Hi) as [X | X]; auto. destruct (H a b X) as [Y | [Y | Y]]; auto.
Qed.
Lemma tg_weak N M c c' : tg N c c' -> incl N M -> tg M c c'.
Proof. intros H HI a b Hi. destruct (H a b Hi) as [X | [X | X]]; auto. Qed.
Lemma tg_edge N p q c : match q with Some b => In b N \/ meta' b | None => True end -> tg N c (add_edge e p q c).
Proof.
  intros H a b Hi. unfold add_edge in Hi. destruct p as [p|], q as [q|]; auto.
  destruct (gnode_eqb p e); auto. destruct (existsb _ _); auto. simpl in Hi.
  apply in_app_iff in Hi as [Hi | [Hi | []]]; auto. injection Hi as <- <-. auto.
Qed.
Lemma tg_add N n c : tg N c (get_or_add n c).
Proof. intros a b Hi. unfold get_or_add in Hi. destruct (memn n (c_nodes c)); auto. Qed.
Lemma tg_chain N p n c q c' : chain e p n c = (q, c') -> In n N -> tg N c c' /\ q = Some n.
Proof.
  intros E Hn. pose proof (chain_le _ _ _ _ _ _ E) as [_ ->]. apply pair_inj in E as [_ <-]. split; auto.
  eapply tg_trans; [apply tg_add | apply incl_refl | apply tg_edge; auto].
Qed.
Lemma tg_flow N c n c' : new_flow c = (n, c') -> tg N c c' /\ meta' n.
Proof. intros E. injection E as <- <-. split; [intros a b; auto | split; [reflexivity | discriminate]]. Qed.
Lemma tg_end N v c n c' : new_end v c = (n, c') -> tg N c c' /\ meta' n.
Proof. intros E. injection E as <- <-. split; [intros a b; auto | split; [reflexivity | discriminate]]. Qed.

Definition T_stmt (s : stmt) := forall N pred send c q c', add_stmt e s pred send c = (q, c') -> meta' send -> incl (own s) N -> tg N c c'.
Definition T_stmts (ss : stmts) := forall N pred send scope c q c', add_stmts e ss pred send scope c = (q, c') ->
  meta' send -> incl (owns ss) N -> tg N c c'.
Lemma tg_block ss : T_stmts ss -> forall N pred scope c q c', add_block e ss pred scope c = (q, c') -> incl (owns ss) N ->
  tg N c c'.
Proof.
  intros IH N pred scope c q c' E Hi. rewrite add_block_eq in E. dlet E. apply pair_inj in E as [_ <-].
  apply (tg_end N) in H as [H Hm]. apply (IH N) in H0; auto.
  eapply tg_trans; [exact H | apply incl_refl|]. eapply tg_trans; [exact H0 | apply incl_refl|]. apply tg_edge. auto.
Qed.
Lemma tg_init N i p c q c' : add_init e i p c = (q, c') -> incl (map fst (init_info i)) N -> tg N c c'.
Proof.
  destruct i as [[x ex]|]; simpl; intros E Hi.
  - refine (proj1 (tg_chain N _ _ _ _ _ E _)). apply Hi. simpl. auto.
  - injection E as <- <-. apply tg_refl.
Qed.
Ltac seq := eapply tg_trans; [eassumption | apply incl_refl |].
Lemma own_if i l c t h f : own (SIf i l c t h f) = map fst (init_info i) ++ NStmt l :: owns t ++ owns f.
Proof. unfold own, owns. cbn [info_stmt]. rewrite map_app. simpl. now rewrite map_app. Qed.
Lemma own_while i l c t h f : own (SWhile i l c t h f) = map fst (init_info i) ++ NStmt l :: owns t ++ owns f.
Proof. unfold own, owns. cbn [info_stmt]. rewrite map_app. simpl. now rewrite map_app. Qed.
Lemma own_try t f : own (STry t f) = owns t ++ owns f.
Proof. unfold own, owns. cbn [info_stmt]. now rewrite map_app. Qed.
Lemma owns_cons s r : owns (SCons s r) = own s ++ owns r.
Proof. unfold own, owns. cbn [info]. now rewrite map_app. Qed.
Lemma incl_app4 {A} (a b c : list A) x N : incl (a ++ x :: b ++ c) N -> incl a N /\ In x N /\ incl b N /\ incl c N.
Proof.
  intros H. assert (X : forall y, In y a \/ y = x \/ In y b \/ In y c -> In y N).
  { intros y Hy. apply H. rewrite in_app_iff. simpl. rewrite in_app_iff. intuition. }
  repeat split; try intros y Hy; apply X; auto.
Qed.
Lemma incl_app2 {A} (a b N : list A) : incl (a ++ b) N -> incl a N /\ incl b N.
Proof. intros H. split; intros x Hx; apply H, in_app_iff; auto. Qed.
Lemma tgt_all : (forall s, T_stmt s) /\ (forall ss, T_stmts ss).
Proof.
  apply stmt_mutind; unfold T_stmt.
  - intros l x ex N pred send c q c' E Hs Hi. refine (proj1 (tg_chain N _ _ _ _ _ E _)). apply Hi. simpl. auto.
  - intros l ex N pred send c q c' E Hs Hi. refine (proj1 (tg_chain N _ _ _ _ _ E _)). apply Hi. simpl. auto.
  - intros l x i N pred send c q c' E Hs Hi. refine (proj1 (tg_chain N _ _ _ _ _ E _)). apply Hi. simpl. auto.
  - intros i l k t IHt hasf f IHf N pred send c q c' E Hs Hi. rewrite add_if in E. dlet E.
    rewrite own_if in Hi. apply incl_app4 in Hi as (Ii & Il & It & If).
    pose proof (tg_block _ IHt N) as Bt. pose proof (tg_block _ IHf N) as Bf.
    apply (tg_init N) in H; auto. destruct (tg_chain N _ _ _ _ _ H0 Il) as [H0' ->]; clear H0; rename H0' into H0. apply (tg_flow N) in H1 as [H1 Hm]. apply Bt in H2; auto.
    seq. seq. seq. seq. eapply tg_trans; [apply (tg_edge N q3 (Some q2)); right; exact Hm | apply incl_refl|].
    destruct hasf.
    + destruct (add_block e f _ (decls f) _) as [q5 c5] eqn:H5. apply pair_inj in E as [_ <-]. apply Bf in H5; auto.
      seq. apply tg_edge. auto.
    + apply pair_inj in E as [_ <-]. apply tg_edge. auto.
  - intros i l k t IHt hasf f IHf N pred send c q c' E Hs Hi. rewrite add_while in E. dlet E.
    rewrite own_while in Hi. apply incl_app4 in Hi as (Ii & Il & It & If).
    pose proof (tg_block _ IHt N) as Bt. pose proof (tg_block _ IHf N) as Bf.
    apply (tg_init N) in H; auto. destruct (tg_chain N _ _ _ _ _ H0 Il) as [H0' ->]; clear H0; rename H0' into H0. apply Bt in H1; auto. apply (tg_flow N) in H2 as [H2 Hm].
    seq. seq. seq. eapply tg_trans; [apply (tg_edge N q2 (Some (NStmt l))); left; exact Il | apply incl_refl|]. seq.
    eapply tg_trans; [apply (tg_edge N (Some (NStmt l)) (Some q3)); right; exact Hm | apply incl_refl|].
    destruct hasf.
    + destruct (add_block e f _ (decls f) _) as [q5 c5] eqn:H5. apply pair_inj in E as [_ <-]. apply Bf in H5; auto.
      seq. apply tg_edge. auto.
    + apply pair_inj in E as [_ <-]. apply tg_refl.
  - intros b IHb k IHk N pred send c q c' E Hs Hi. rewrite add_try in E. dlet E.
    rewrite own_try in Hi. apply incl_app2 in Hi as [Ib Ik].
    pose proof (tg_block _ IHb N) as Bb. pose proof (tg_block _ IHk N) as Bk.
    apply Bb in H; auto. apply (tg_flow N) in H0 as [H0 Hm]. apply (tg_flow N) in H1 as [H1 Hm1]. apply Bk in H2; auto.
    apply pair_inj in E as [_ <-]. seq. seq. eapply tg_trans; [apply (tg_edge N q0 (Some q1)); right; exact Hm | apply incl_refl|].
    seq. eapply tg_trans; [apply (tg_edge N q0 (Some q2)); right; exact Hm1 | apply incl_refl|]. seq. apply (tg_edge N q3 (Some q1)). auto.
  - intros l o N pred send c q c' E Hs Hi. destruct o; cbn -[chain] in E.
    + dlet E. apply pair_inj in E as [_ <-]. pose proof (proj1 (tg_chain N _ _ _ _ _ H (Hi _ (or_introl eq_refl)))) as H'.
      eapply tg_trans; [exact H' | apply incl_refl|]. apply tg_edge. auto.
    + apply pair_inj in E as [_ <-]. apply tg_edge. auto.
  - intros l o N pred send c q c' E Hs Hi. cbn -[chain] in E.
    dlet E. apply pair_inj in E as [_ <-]. pose proof (proj1 (tg_chain N _ _ _ _ _ H (Hi _ (or_introl eq_refl)))) as H'.
    eapply tg_trans; [exact H' | apply incl_refl|]. apply tg_edge. auto.
  - intros l ex N pred send c q c' E Hs Hi. refine (proj1 (tg_chain N _ _ _ _ _ E _)). apply Hi. simpl. auto.
  - intros N pred send c q c' E Hs Hi. apply pair_inj in E as [_ <-]. apply tg_refl.
  - intros N pred send c q c' E Hs Hi. apply pair_inj in E as [_ <-]. apply tg_refl.
  - intros b IHb N pred send c q c' E Hs Hi. rewrite add_blk in E. eapply (tg_block b IHb); eauto.
  - intros N pred send scope c q c' E Hs Hi. apply pair_inj in E as [_ <-]. apply tg_refl.
  - intros s IHs r IHr N pred send scope c q c' E Hs Hi. rewrite add_cons in E. dlet E.
    rewrite owns_cons in Hi. apply incl_app2 in Hi as [Is Ir].
    apply (IHs N) in H; auto. destruct (is_control s).
    + destruct r as [|s' r]; [apply pair_inj in E as [_ <-]; auto|].
      dlet E. apply pair_inj in E as [_ <-]. apply (tg_end N) in H0 as [H0 Hm]. apply (IHr N) in H1; auto. apply (tg_flow N) in H2 as [H2 Hm2].
      seq. seq. seq. eapply tg_trans; [apply (tg_edge N q2 (Some q1) c2); right; exact Hm | apply incl_refl|]. seq.
      eapply tg_trans; [apply (tg_edge N q0 (Some q3)); right; exact Hm2 | apply incl_refl|].
      apply (tg_edge N (Some q1) (Some q3)). auto.
    + apply (IHr N) in E; auto. seq. exact E.
Qed.
End Tgt.

Lemma meta_fend f : meta' (fend f).
Proof. split; [reflexivity | discriminate]. Qed.
Lemma tg_params e ps : forall p c q c', fold_left (fun '(pred, c) (p : var * bool) => chain e pred (NDecl (fst p)) c) ps (p, c) = (q, c') ->
  tg (map (fun p => NDecl (fst p)) ps) c c'.
Proof.
  assert (X : forall N p c q c', incl (map (fun p => NDecl (fst p)) ps) N ->
     fold_left (fun '(pred, c) (p : var * bool) => chain e pred (NDecl (fst p)) c) ps (p, c) = (q, c') -> tg N c c').
  { induction ps as [|x ps IH]; intros N p c q c' HI E.
    - apply pair_inj in E as [_ <-]. apply tg_refl.
    - cbn [fold_left] in E. destruct (chain e p (NDecl (fst x)) c) as [q1 c1] eqn:E1.
      assert (X1 : tg N c c1) by (refine (proj1 (tg_chain e N _ _ _ _ _ E1 _)); apply HI; simpl; auto).
      eapply tg_trans; [exact X1 | apply incl_refl|]. eapply IH; eauto. intros y Hy. apply HI. simpl. auto. }
  intros. eapply X; eauto. apply incl_refl.
Qed.
Lemma build_raw_target f a b : In (a, b) (c_edges (build_raw f)) ->
  In b (map (fun p => NDecl (fst p)) (f_params f) ++ owns (f_body f)) \/ meta' b.
Proof.
  rewrite build_raw_eq. destruct (add_params _ _ _) as [p c] eqn:E1. destruct (add_block _ _ _ _ _) as [q c2] eqn:E2.
  set (N := _ ++ _). apply tg_params in E1.
  pose proof (tg_block _ _ (proj2 (tgt_all (fend f) (meta_fend f)) (f_body f)) N _ _ _ _ _ E2) as T.
  intros H. assert (HT : tg N (c_init f) (add_edge (fend f) q (Some (fend f)) c2)).
  { eapply tg_trans; [exact E1 | apply incl_appl, incl_refl|]. eapply tg_trans; [apply T; apply incl_appr, incl_refl | apply incl_refl|].
    apply tg_edge. right. apply meta_fend. }
  destruct (HT a b H) as [[] | X]. exact X.
Qed.
Lemma owns_not_start ss : ~ In NStart (owns ss).
Proof.
  intros H. apply in_map_iff in H as ((n, t) & E & H). simpl in E. subst n.
  apply (proj2 info_nodes) in H. discriminate.
Qed.
Lemma no_edge_to_start f a : ~ In (a, NStart) (c_edges (build_raw f)).
Proof.
  intros H. apply build_raw_target in H as [H | [_ H]]; [|now apply H].
  apply in_app_iff in H as [H | H]; [|now apply owns_not_start in H].
  apply in_map_iff in H as (p & H & _). discriminate.
Qed.
Lemma build_edges f : incl (g_edges (build f)) (c_edges (build_raw f)).
Proof.
  unfold build. set (c := build_raw f). generalize (length (c_nodes c)). intros k.
  assert (X : forall k g, incl (g_edges (prune k g)) (g_edges g)).
  { induction k0 as [|k0 IH]; intros g; [apply incl_refl|]. rewrite prune_S. destruct (filter _ _); [apply incl_refl|].
    eapply incl_tran; [apply IH|]. intros e He. unfold prune_round in He. simpl in He. now apply filter_In in He. }
  apply (X k).
Qed.
