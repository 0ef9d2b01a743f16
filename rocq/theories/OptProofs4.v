(* The whole function: its graph is closed, pruning leaves everything reachable, and the simulation theorem for it. *)
From Coq Require Import List Arith Bool ZArith Lia.
From Verif Require Import OptModel OptSpec OptProofs1 OptProofs2 OptProofs3.
Import ListNotations.

(* ---- edges are between nodes ---- *)
Definition nclosed (c : cst) : Prop := forall a b, In (a, b) (c_edges c) -> In a (c_nodes c) /\ In b (c_nodes c).
Definition ok_pred (p : option gnode) (c : cst) : Prop := match p with Some n => In n (c_nodes c) | None => True end.
Lemma ok_pred_le p c c' : cle c c' -> ok_pred p c -> ok_pred p c'.
Proof. intros (_ & H & _). destruct p; simpl; auto. Qed.
Lemma nclosed_add n c : nclosed c -> nclosed (get_or_add n c).
Proof.
  intros H a b Hi. unfold get_or_add in *. destruct (memn n (c_nodes c)); [auto|]. simpl in *.
  destruct (H _ _ Hi). split; apply in_app_iff; auto.
Qed.
Lemma nclosed_edge e p q c : ok_pred p c -> ok_pred q c -> nclosed c -> nclosed (add_edge e p q c).
Proof.
  intros Hp Hq H. unfold add_edge. destruct p as [a|], q as [b|]; auto.
  destruct (gnode_eqb a e); auto. destruct (existsb _ _); auto.
  intros u v Hi. simpl in *. apply in_app_iff in Hi as [Hi | [Hi | []]]; auto. injection Hi as <- <-. auto.
Qed.
Lemma nclosed_chain e p n c q c' : chain e p n c = (q, c') -> ok_pred p c -> nclosed c -> nclosed c' /\ ok_pred q c' /\ cle c c'.
Proof.
  intros E Hp H. pose proof (chain_le _ _ _ _ _ _ E) as [Hle ->]. apply pair_inj in E as [_ <-].
  assert (In n (c_nodes (get_or_add n c))) by apply get_or_add_in.
  split; [|split; [|auto]].
  - apply nclosed_edge; simpl; auto; [eapply ok_pred_le; [apply get_or_add_le | auto] | now apply nclosed_add].
  - simpl. eapply (ok_pred_le (Some n)); [apply add_edge_le | auto].
Qed.
Lemma nclosed_new_end v c n c' : new_end v c = (n, c') -> nclosed c -> nclosed c' /\ In n (c_nodes c') /\ cle c c'.
Proof.
  intros E H. pose proof (new_end_le _ _ _ _ E) as [Hle _]. injection E as <- <-. split; [|split; auto].
  - intros a b Hi. simpl in *. destruct (H _ _ Hi). split; apply in_app_iff; auto.
  - simpl. apply in_app_iff. simpl. auto.
Qed.
Lemma nclosed_new_flow c n c' : new_flow c = (n, c') -> nclosed c -> nclosed c' /\ In n (c_nodes c') /\ cle c c'.
Proof.
  intros E H. pose proof (new_flow_le _ _ _ E) as [Hle _]. injection E as <- <-. split; [|split; auto].
  - intros a b Hi. simpl in *. destruct (H _ _ Hi). split; apply in_app_iff; auto.
  - simpl. apply in_app_iff. simpl. auto.
Qed.

Section Closed.
Variable e : gnode.
Definition C_stmt (s : stmt) := forall pred send c q c', add_stmt e s pred send c = (q, c') ->
  ok_pred pred c -> In send (c_nodes c) -> In e (c_nodes c) -> nclosed c -> nclosed c' /\ ok_pred q c' /\ cle c c'.
Definition C_stmts (ss : stmts) := forall pred send scope c q c', add_stmts e ss pred send scope c = (q, c') ->
  ok_pred pred c -> In send (c_nodes c) -> In e (c_nodes c) -> nclosed c -> nclosed c' /\ ok_pred q c' /\ cle c c'.
Definition C_block (ss : stmts) := forall pred scope c q c', add_block e ss pred scope c = (q, c') ->
  ok_pred pred c -> In e (c_nodes c) -> nclosed c -> nclosed c' /\ ok_pred q c' /\ cle c c'.
Lemma c_in n c c' : cle c c' -> In n (c_nodes c) -> In n (c_nodes c').
Proof. intros (_ & H & _). apply H. Qed.
Lemma closed_edge p q c : nclosed c -> ok_pred p c -> ok_pred q c -> nclosed (add_edge e p q c) /\ ok_pred q (add_edge e p q c) /\ cle c (add_edge e p q c).
Proof.
  intros H Hp Hq. split; [now apply nclosed_edge|]. split; [|apply add_edge_le]. eapply ok_pred_le; [apply add_edge_le | auto].
Qed.
Lemma closed_block ss : C_stmts ss -> C_block ss.
Proof.
  intros IH pred scope c q c' E Hp He H. rewrite add_block_eq in E. dlet E. apply pair_inj in E as [<- <-].
  destruct (nclosed_new_end _ _ _ _ H0 H) as (N0 & I0 & L0).
  destruct (IH _ _ _ _ _ _ H1 (ok_pred_le _ _ _ L0 Hp) I0 (c_in _ _ _ L0 He) N0) as (N1 & P1 & L1).
  destruct (closed_edge q1 (Some q0) c1 N1 P1 (c_in _ _ _ L1 I0)) as (N2 & P2 & L2).
  split; [auto|]. split; [auto|]. eapply cle_trans; [eauto|]. eapply cle_trans; eauto.
Qed.
Lemma closed_init i p c q c' : add_init e i p c = (q, c') -> ok_pred p c -> nclosed c -> nclosed c' /\ ok_pred q c' /\ cle c c'.
Proof.
  destruct i as [[x ex]|]; unfold add_init; intros E Hp H.
  - eapply nclosed_chain; eauto.
  - apply pair_inj in E as [<- <-]. auto using cle_refl.
Qed.
Ltac le_solve := eauto using cle_refl; repeat (eapply cle_trans; [eassumption|]); eauto using cle_refl.
Lemma closed_all : (forall s, C_stmt s) /\ (forall ss, C_stmts ss).
Proof.
  apply stmt_mutind; unfold C_stmt.
  - intros l x ex pred send c q c' E Hp Hs He H. eapply nclosed_chain; eauto.
  - intros l ex pred send c q c' E Hp Hs He H. eapply nclosed_chain; eauto.
  - intros l x i pred send c q c' E Hp Hs He H. eapply nclosed_chain; eauto.
  - intros i l k t IHt hasf f IHf pred send c q c' E Hp Hs He H. rewrite add_if in E. dlet E.
    apply closed_block in IHt, IHf.
    destruct (closed_init _ _ _ _ _ H0 Hp H) as (N0 & P0 & L0).
    destruct (nclosed_chain _ _ _ _ _ _ H1 P0 N0) as (N1 & P1 & L1).
    destruct (nclosed_new_flow _ _ _ H2 N1) as (N2 & P2 & L2).
    assert (He2 : In e (c_nodes c2)) by (repeat (eapply c_in; [eassumption|]); auto).
    destruct (IHt _ _ _ _ _ H3 (ok_pred_le _ _ _ L2 P1) He2 N2) as (N3 & P3 & L3).
    destruct (closed_edge q3 (Some q2) c3 N3 P3 (c_in _ _ _ L3 P2)) as (N4 & P4 & L4).
    assert (L : cle c (add_edge e q3 (Some q2) c3)).
    { eapply cle_trans; [eauto|]. eapply cle_trans; [eauto|]. eapply cle_trans; [eauto|]. eapply cle_trans; eauto. }
    assert (P1' : ok_pred q1 (add_edge e q3 (Some q2) c3)).
    { eapply ok_pred_le; [exact L4|]. eapply ok_pred_le; [exact L3|]. eapply ok_pred_le; eauto. }
    destruct hasf.
    + destruct (add_block e f q1 (decls f) _) as [q5 c5] eqn:H5. apply pair_inj in E as [<- <-].
      destruct (IHf _ _ _ _ _ H5 P1' (c_in _ _ _ L He) N4) as (N5 & P5 & L5).
      destruct (closed_edge q5 (Some q2) c5 N5 P5 (c_in _ _ _ L5 P4)) as (N6 & P6 & L6).
      split; [auto|]. split; [auto|]. eapply cle_trans; [exact L|]. eapply cle_trans; eauto.
    + apply pair_inj in E as [<- <-].
      destruct (closed_edge q1 (Some q2) _ N4 P1' P4) as (N6 & P6 & L6).
      split; [auto|]. split; [auto|]. eapply cle_trans; [exact L|]. eauto.
  - intros i l k b IHb hase el IHe pred send c q c' E Hp Hs He H. rewrite add_while in E. dlet E.
    apply closed_block in IHb, IHe.
    destruct (closed_init _ _ _ _ _ H0 Hp H) as (N0 & P0 & L0).
    destruct (nclosed_chain _ _ _ _ _ _ H1 P0 N0) as (N1 & P1 & L1).
    assert (He1 : In e (c_nodes c1)) by (repeat (eapply c_in; [eassumption|]); auto).
    destruct (IHb _ _ _ _ _ H2 P1 He1 N1) as (N3 & P3 & L3).
    destruct (closed_edge q2 q1 c2 N3 P3 (ok_pred_le _ _ _ L3 P1)) as (N4 & P4 & L4).
    destruct (nclosed_new_flow _ _ _ H3 N4) as (N5 & P5 & L5).
    destruct (closed_edge q1 (Some q3) c3 N5 (ok_pred_le _ _ _ L5 P4) P5) as (N6 & P6 & L6).
    assert (L : cle c (add_edge e q1 (Some q3) c3)).
    { eapply cle_trans; [exact L0|]. eapply cle_trans; [exact L1|]. eapply cle_trans; [exact L3|].
      eapply cle_trans; [exact L4|]. eapply cle_trans; [exact L5|]. exact L6. }
    destruct hase.
    + destruct (add_block e el q1 (decls el) _) as [q7 c7] eqn:H7. apply pair_inj in E as [<- <-].
      destruct (IHe _ _ _ _ _ H7 (ok_pred_le _ _ _ L6 (ok_pred_le _ _ _ L5 P4)) (c_in _ _ _ L He) N6) as (N7 & P7 & L7).
      destruct (closed_edge q7 (Some q3) c7 N7 P7 (c_in _ _ _ L7 P6)) as (N8 & P8 & L8).
      split; [auto|]. split; [auto|]. eapply cle_trans; [exact L|]. eapply cle_trans; eauto.
    + apply pair_inj in E as [<- <-]. auto.
  - intros b IHb k IHk pred send c q c' E Hp Hs He H. rewrite add_try in E. dlet E.
    apply closed_block in IHb, IHk.
    destruct (IHb _ _ _ _ _ H0 Hp He H) as (N0 & P0 & L0).
    destruct (nclosed_new_flow _ _ _ H1 N0) as (N1 & P1 & L1).
    destruct (closed_edge q0 (Some q1) c1 N1 (ok_pred_le _ _ _ L1 P0) P1) as (N2 & P2 & L2).
    destruct (nclosed_new_flow _ _ _ H2 N2) as (N3 & P3 & L3).
    destruct (closed_edge q0 (Some q2) c2 N3 (ok_pred_le _ _ _ L3 (ok_pred_le _ _ _ L2 (ok_pred_le _ _ _ L1 P0))) P3) as (N4 & P4 & L4).
    assert (L : cle c (add_edge e q0 (Some q2) c2)).
    { eapply cle_trans; [exact L0|]. eapply cle_trans; [exact L1|]. eapply cle_trans; [exact L2|].
      eapply cle_trans; [exact L3|]. exact L4. }
    destruct (IHk _ _ _ _ _ H3 P4 (c_in _ _ _ L He) N4) as (N5 & P5 & L5).
    assert (P2' : In q1 (c_nodes c3)).
    { eapply c_in; [exact L5|]. eapply c_in; [exact L4|]. eapply c_in; [exact L3|]. exact P2. }
    destruct (closed_edge q3 (Some q1) c3 N5 P5 P2') as (N6 & P6 & L6). apply pair_inj in E as [<- <-].
    split; [auto|]. split; [auto|]. eapply cle_trans; [exact L|]. eapply cle_trans; eauto.
  - intros l o pred send c q c' E Hp Hs He H. destruct o; cbn -[chain] in E.
    + dlet E. destruct (nclosed_chain _ _ _ _ _ _ H0 Hp H) as (N0 & P0 & L0).
      destruct (closed_edge q0 (Some send) c0 N0 P0 (c_in _ _ _ L0 Hs)) as (N1 & P1 & L1). apply pair_inj in E as [<- <-].
      split; [auto|]. split; [auto|]. eapply cle_trans; eauto.
    + destruct (closed_edge pred (Some send) c H Hp Hs) as (N1 & P1 & L1). apply pair_inj in E as [<- <-]. auto.
  - intros l o pred send c q c' E Hp Hs He H. cbn -[chain] in E.
    dlet E. destruct (nclosed_chain _ _ _ _ _ _ H0 Hp H) as (N0 & P0 & L0).
    destruct (closed_edge q0 (Some e) c0 N0 P0 (c_in _ _ _ L0 He)) as (N1 & P1 & L1). apply pair_inj in E as [<- <-].
    split; [auto|]. split; [auto|]. eapply cle_trans; eauto.
  - intros l ex pred send c q c' E Hp Hs He H. eapply nclosed_chain; eauto.
  - intros pred send c q c' E Hp Hs He H. apply pair_inj in E as [<- <-]. auto using cle_refl.
  - intros pred send c q c' E Hp Hs He H. apply pair_inj in E as [<- <-]. auto using cle_refl.
  - intros b IHb pred send c q c' E Hp Hs He H. rewrite add_blk in E. eapply (closed_block b IHb); eauto.
  - intros pred send scope c q c' E Hp Hs He H. apply pair_inj in E as [<- <-]. auto using cle_refl.
  - intros s IHs r IHr pred send scope c q c' E Hp Hs He H. rewrite add_cons in E. dlet E.
    destruct (IHs _ _ _ _ _ H0 Hp Hs He H) as (N0 & P0 & L0).
    destruct (is_control s).
    + destruct r as [|s' r]; [apply pair_inj in E as [<- <-]; auto|].
      dlet E. destruct (nclosed_new_end _ _ _ _ H1 N0) as (N1 & P1 & L1).
      assert (He1 : In e (c_nodes c1)) by (eapply c_in; [exact L1|]; eapply c_in; eauto).
      destruct (IHr _ _ _ _ _ _ H2 I P1 He1 N1) as (N2 & P2 & L2).
      destruct (closed_edge q2 (Some q1) c2 N2 P2 (c_in _ _ _ L2 P1)) as (N3 & P3 & L3).
      destruct (nclosed_new_flow _ _ _ H3 N3) as (N4 & P4 & L4).
      assert (P0' : ok_pred q0 c3).
      { eapply ok_pred_le; [exact L4|]. eapply ok_pred_le; [exact L3|]. eapply ok_pred_le; [exact L2|]. eapply ok_pred_le; eauto. }
      destruct (closed_edge q0 (Some q3) c3 N4 P0' P4) as (N5 & P5 & L5).
      destruct (closed_edge (Some q1) (Some q3) _ N5 (c_in _ _ _ L5 (c_in _ _ _ L4 P3)) P5) as (N6 & P6 & L6).
      apply pair_inj in E as [<- <-]. split; [exact N6|]. split; [exact P6|].
      eapply cle_trans; [exact L0|]. eapply cle_trans; [exact L1|]. eapply cle_trans; [exact L2|].
      eapply cle_trans; [exact L3|]. eapply cle_trans; [exact L4|]. eapply cle_trans; [exact L5|]. exact L6.
    + destruct (IHr _ _ _ _ _ _ E P0 (c_in _ _ _ L0 Hs) (c_in _ _ _ L0 He) N0) as (N1 & P1 & L1).
      split; [auto|]. split; [auto|]. eapply cle_trans; eauto.
Qed.
End Closed.

Definition c_init (f : func) : cst := {| c_next := 1; c_nodes := [NStart; fend f]; c_edges := [] |}.

Lemma add_params_ok e ps : forall p c q c', fold_left (fun '(pred, c) (p : var * bool) => chain e pred (NDecl (fst p)) c) ps (Some p, c) = (q, c') ->
  In p (c_nodes c) -> nclosed c ->
  nclosed c' /\ ok_pred q c' /\ cle c c'.
Proof.
  induction ps as [|x ps IH]; intros p c q c' E Hp H.
  - apply pair_inj in E as [<- <-]. auto using cle_refl.
  - cbn [fold_left] in E. destruct (chain e (Some p) (NDecl (fst x)) c) as [q1 c1] eqn:E1.
    destruct (nclosed_chain _ _ _ _ _ _ E1 Hp H) as (N1 & P1 & L1). apply chain_le in E1 as [_ ->].
    destruct (IH _ _ _ _ E P1 N1) as (N2 & P2 & L2). split; [auto|]. split; [auto|]. eapply cle_trans; eauto.
Qed.

Lemma build_raw_eq f : build_raw f =
  let (begin_, c) := add_params (fend f) (f_params f) (c_init f) in
  let (last, c) := add_block (fend f) (f_body f) begin_ (decls (f_body f)) c in
  add_edge (fend f) last (Some (fend f)) c.
Proof. reflexivity. Qed.

Lemma build_raw_closed f : nclosed (build_raw f) /\ In NStart (c_nodes (build_raw f)) /\ In (fend f) (c_nodes (build_raw f)).
Proof.
  rewrite build_raw_eq. destruct (add_params _ _ _) as [b c] eqn:E1.
  assert (N0 : nclosed (c_init f)) by (intros ? ? []).
  destruct (add_params_ok _ _ _ _ _ _ E1 (or_introl eq_refl) N0) as (N1 & P1 & L1).
  destruct (add_block _ _ _ _ _) as [q c2] eqn:E2.
  assert (He : In (fend f) (c_nodes c)) by (eapply c_in; [exact L1|]; simpl; auto).
  destruct (closed_block _ _ (proj2 (closed_all (fend f)) _) _ _ _ _ _ E2 P1 He N1) as (N2 & P2 & L2).
  destruct (closed_edge (fend f) q (Some (fend f)) c2 N2 P2 (c_in _ _ _ L2 He)) as (N3 & P3 & L3).
  split; [auto|]. split; [|auto]. eapply c_in; [exact L3|]. eapply c_in; [exact L2|]. eapply c_in; [exact L1|]. simpl. auto.
Qed.

(* ---- pruning ---- *)
Definition keeps (E : list (gnode * gnode)) (g : graph) : Prop :=
  (forall n, reach E n -> In n (g_nodes g)) /\ (forall p n, reach E p -> In (p, n) E -> edge g p n).
Lemma dead_not_reach E g n : keeps E g -> dead_end g n = true -> ~ reach E n.
Proof.
  intros [K1 K2] H Hr. unfold dead_end in H. apply andb_true_iff in H as [H H3]. apply andb_true_iff in H as [H1 H2].
  destruct Hr as [|p n Hr He].
  - discriminate.
  - pose proof (K2 _ _ Hr He) as X. apply upstream_in in X. destruct (upstream g n); [destruct X | discriminate].
Qed.
Lemma not_memn_dead E g n : keeps E g -> reach E n -> memn n (filter (dead_end g) (g_nodes g)) = false.
Proof.
  intros K Hr. destruct (memn n _) eqn:M; auto. apply memn_in in M. apply filter_In in M as [_ M].
  destruct (dead_not_reach _ _ _ K M Hr).
Qed.
Lemma keeps_round E g : keeps E g -> keeps E (prune_round g).
Proof.
  intros K. split.
  - intros n Hr. simpl. apply filter_In. split; [now apply K|]. now rewrite (not_memn_dead _ _ _ K Hr).
  - intros p n Hr He. unfold edge. simpl. apply filter_In. split; [now apply K|]. simpl.
    rewrite (not_memn_dead _ _ _ K Hr), (not_memn_dead _ _ _ K (reach_edge _ _ _ Hr He)). auto.
Qed.
Lemma prune_S k g : prune (S k) g = match filter (dead_end g) (g_nodes g) with [] => g | _ => prune k (prune_round g) end.
Proof. reflexivity. Qed.
Lemma keeps_prune E k : forall g, keeps E g -> keeps E (prune k g).
Proof.
  induction k as [|k IH]; intros g K; auto. rewrite prune_S. destruct (filter _ _); auto. apply IH. now apply keeps_round.
Qed.
Lemma closed_round g : closed g -> closed (prune_round g).
Proof.
  intros C a b He. unfold edge in He. simpl in He. apply filter_In in He as [He Hm]. apply andb_true_iff in Hm as [H1 H2].
  destruct (C a b He). simpl in *. split; apply filter_In; auto.
Qed.
Lemma closed_prune k : forall g, closed g -> closed (prune k g).
Proof.
  induction k as [|k IH]; intros g C; auto. rewrite prune_S. destruct (filter _ _); auto. apply IH. now apply closed_round.
Qed.

Lemma build_closed f : closed (build f).
Proof. apply closed_prune. intros a b H. now apply (proj1 (build_raw_closed f)). Qed.
Lemma build_keeps f : keeps (c_edges (build_raw f)) (build f).
Proof.
  apply keeps_prune. split.
  - intros n Hr. simpl. destruct (build_raw_closed f) as (C & I0 & _). destruct Hr as [|p n Hr He]; auto. now apply (C p n).
  - intros p n Hr He. exact He.
Qed.

(* Pruning finishes within the bound: no dead end is left. *)
Lemma filter_len_lt {A} (h : A -> bool) l x : In x l -> h x = false -> length (filter h l) < length l.
Proof.
  induction l as [|a l IH]; simpl; [tauto|]. intros [-> | Hi] Hx.
  - rewrite Hx. assert (X : length (filter h l) <= length l) by (clear; induction l; simpl; auto; destruct (h a); simpl; lia). lia.
  - specialize (IH Hi Hx). destruct (h a); simpl; lia.
Qed.
Lemma prune_done k : forall g, length (g_nodes g) <= k -> filter (dead_end (prune k g)) (g_nodes (prune k g)) = [].
Proof.
  induction k as [|k IH]; intros g Hl.
  - simpl. destruct (g_nodes g); auto. simpl in Hl. lia.
  - rewrite prune_S. destruct (filter (dead_end g) (g_nodes g)) as [|n r] eqn:F; auto.
    apply IH. cbn [prune_round g_nodes]. rewrite F.
    assert (Hn : In n (g_nodes g)) by (apply (filter_In (dead_end g)); rewrite F; simpl; auto).
    pose proof (filter_len_lt (fun m => negb (memn m (n :: r))) (g_nodes g) n Hn) as X.
    assert (Y : memn n (n :: r) = true) by (apply memn_in; simpl; auto). cbv beta in X. rewrite Y in X. specialize (X eq_refl). lia.
Qed.
Lemma build_no_dead f n : In n (g_nodes (build f)) -> is_meta n = true -> n <> NStart -> exists p, edge (build f) p n.
Proof.
  intros Hn Hm Hs. pose proof (prune_done (length (c_nodes (build_raw f)))
    {| g_nodes := c_nodes (build_raw f); g_edges := c_edges (build_raw f) |} (Nat.le_refl _)) as X.
  change (filter (dead_end (build f)) (g_nodes (build f)) = []) in X.
  destruct (upstream (build f) n) as [|p r] eqn:U.
  - assert (Hd : In n (filter (dead_end (build f)) (g_nodes (build f)))).
    { apply filter_In. split; auto. unfold dead_end. rewrite Hm, U. apply gnode_eqb_no in Hs. now rewrite Hs. }
    rewrite X in Hd. destruct Hd.
  - exists p. apply upstream_in. rewrite U. simpl. auto.
Qed.

(* ---- the simulation for a function ---- *)
Section Run.
Variable W : Type.
Variables L L' : lang W.
Notation state := (state W).
Variable f : func.
Variables IN OUT : list var -> gnode -> state -> state -> Prop.
Variable XR : state -> state -> Prop.
Variables excL excR : exc -> Prop.
Let E := c_edges (build_raw f).
Let end_ := fend f.
Let Vp := map fst (f_params f).
Variable H_edge : forall V p n s s', reach E p -> In (p, n) E -> OUT V p s s' -> IN V n s s'.
Variable H_flow : forall V k s s', IN V (NFlow k) s s' -> OUT V (NFlow k) s s'.
Variable H_end : forall V V' k sc s s', IN V (NEnd k sc) s s' -> incl V' V -> (forall x, In x V' -> ~ In x sc) ->
  (forall x, In x V -> In x V' \/ In x sc) -> incl Vp V' -> OUT V' (NEnd k sc) s s'.
Variable wk : list var -> list var -> Prop.
Variable H_weak : forall V V' n s s', IN V n s s' -> incl V' V -> wk V V' -> IN V' n s s'.
Variable H_param : forall V x s s', In x Vp -> IN V (NDecl x) s s' -> OUT V (NDecl x) s s'.

Definition fmatch (l r : outcome W) : Prop :=
  free W excL excR l r \/
  match l with
  | ONorm s => exists s' V', r = ONorm s' /\ incl Vp V' /\ IN V' end_ s s'
  | ORet v s => exists s' V', r = ORet v s' /\ incl Vp V' /\ IN V' end_ s s'
  | OThr x s => exists s', r = OThr x s' /\ XR s s'
  | OFuel => r = OFuel
  | _ => False
  end.

Lemma params_reach ps : forall p c q c', fold_left (fun '(pred, c) (p : var * bool) => chain end_ pred (NDecl (fst p)) c) ps (Some p, c) = (q, c') ->
  incl (map fst ps) Vp -> incl (c_edges c') E -> cle c c' -> reach E p -> p <> end_ ->
  exists b, q = Some b /\ reach E b /\ b <> end_ /\ forall V s s', OUT V p s s' -> OUT V b s s'.
Proof.
  induction ps as [|x ps IH]; intros p c q c' Ef Hi HE Hle Hr Hp.
  - apply pair_inj in Ef as [<- <-]. exists p. auto.
  - cbn [fold_left] in Ef. destruct (chain end_ (Some p) (NDecl (fst x)) c) as [q1 c1] eqn:E1.
    pose proof (chain_edge _ _ _ _ _ _ E1 Hp) as He. apply chain_le in E1 as [_ ->].
    assert (L2 : cle c1 c').
    { clear -Ef. revert Ef. generalize (Some (NDecl (fst x))). revert c1. induction ps as [|y ps IH]; intros c1 o Ef.
      - apply pair_inj in Ef as [_ <-]. apply cle_refl.
      - cbn [fold_left] in Ef. destruct (chain end_ o (NDecl (fst y)) c1) as [q2 c2] eqn:E2.
        apply chain_le in E2 as [L ->]. eapply cle_trans; [exact L|]. eapply IH; eauto. }
    apply (incl_edges E _ _ L2 HE) in He.
    destruct (IH (NDecl (fst x)) c1 q c' Ef) as (b & -> & Hrb & Hb & HV); auto.
    + intros y Hy. apply Hi. simpl. auto.
    + eapply reach_edge; [exact Hr | exact He].
    + discriminate.
    + exists b. split; [auto|]. split; [auto|]. split; [auto|]. intros V s s' HO. apply HV. apply H_param.
      * apply Hi. simpl. auto.
      * eapply H_edge; [exact Hr | exact He | exact HO].
Qed.

Theorem sim_run b' V' : trs W L L' E IN OUT XR excL excR wk Vp (f_body f) b' V' -> disj Vp (decls (f_body f)) ->
  forall n σ σ', OUT Vp NStart σ σ' -> fmatch (execs W L n (f_body f) σ) (execs W L' n b' σ').
Proof.
  intros Ht HD n σ σ' HO.
  pose proof (build_raw_eq f) as B. destruct (add_params _ _ _) as [b c] eqn:E1.
  destruct (add_block _ _ _ _ _) as [q c2] eqn:E2.
  assert (N0 : nclosed (c_init f)) by (intros ? ? []).
  destruct (add_params_ok _ _ _ _ _ _ E1 (or_introl eq_refl) N0) as (_ & _ & L1).
  assert (HE2 : incl (c_edges c2) E).
  { eapply incl_edges; [|apply incl_refl]. fold end_ in B. rewrite B. apply add_edge_le. }
  assert (L2 : cle c c2) by (eapply add_block_le'; eauto).
  assert (HE1 : incl (c_edges c) E) by (eapply incl_edges; eauto).
  destruct (params_reach _ _ _ _ _ E1 (incl_refl _) HE1 L1 (reach_start _)) as (p & -> & Hr & Hp & HV); [discriminate|].
  assert (Hn : 0 < c_next c) by (eapply next_pos; [exact L1|]; simpl; lia).
  assert (Hend0 : exists sc, end_ = NEnd 0 sc) by (eexists; reflexivity).
  pose proof (sim W L L' E end_ Vp IN OUT XR excL excR H_edge H_flow H_end wk H_weak Hend0 _ _ _ _ Ht) as S.
  pose proof (block_ok W L L' E end_ Vp IN OUT XR excL excR H_edge H_end Hend0 Vp _ _ V'
    (trs_incl _ _ _ _ _ _ _ _ _ _ _ _ _ _ Ht) (trs_decls _ _ _ _ _ _ _ _ _ _ _ _ _ _ Ht) HD S _ _ _ _ E2 Hn HE2 Hr Hp (incl_refl _) n σ σ' (HV _ _ _ HO)) as M.
  destruct M as [M | M]; [now left | right].
  destruct (execs W L n (f_body f) σ); simpl in M; auto.
  destruct M as (s' & q' & -> & -> & Hq' & Hrq & HOq). exists s', Vp. split; [auto|]. split; [apply incl_refl|].
  eapply H_edge; [exact Hrq | | exact HOq].
  unfold E. rewrite B. now apply add_edge_in.
Qed.
End Run.
