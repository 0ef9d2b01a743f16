(* A simulation theorem for transformations of function bodies that are justified by facts at the nodes of the
   control-flow graph.  It is used for all three passes. *)
From Coq Require Import List Arith Bool ZArith Lia.
From Verif Require Import OptModel OptSpec OptProofs1.
Import ListNotations.

(* ---- the graph grows during construction ---- *)
Definition cle (c c' : cst) : Prop :=
  c_next c <= c_next c' /\ incl (c_nodes c) (c_nodes c') /\ incl (c_edges c) (c_edges c').
Lemma cle_refl c : cle c c.
Proof. repeat split; auto; apply incl_refl. Qed.
Lemma cle_trans a b c : cle a b -> cle b c -> cle a c.
Proof. intros (?&?&?) (?&?&?). repeat split; [lia | |]; eapply incl_tran; eauto. Qed.
Lemma get_or_add_le n c : cle c (get_or_add n c).
Proof.
  unfold get_or_add. destruct (memn n (c_nodes c)); [apply cle_refl|].
  repeat split; simpl; auto; [apply incl_appl, incl_refl | apply incl_refl].
Qed.
Lemma get_or_add_in n c : In n (c_nodes (get_or_add n c)).
Proof.
  unfold get_or_add. destruct (memn n (c_nodes c)) eqn:E; [now apply memn_in|]. simpl. apply in_app_iff. simpl. auto.
Qed.
Lemma add_edge_le e a b c : cle c (add_edge e a b c).
Proof.
  unfold add_edge. destruct a, b; try apply cle_refl. destruct (gnode_eqb g e); [apply cle_refl|].
  destruct (existsb _ _); [apply cle_refl|]. repeat split; simpl; auto; [apply incl_refl | apply incl_appl, incl_refl].
Qed.
Lemma add_edge_in e a b c : a <> e -> In (a, b) (c_edges (add_edge e (Some a) (Some b) c)).
Proof.
  intros H. unfold add_edge. apply gnode_eqb_no in H. rewrite H.
  destruct (existsb _ _) eqn:E.
  - apply existsb_exists in E as ((u, v) & Hi & E). simpl in E. apply andb_true_iff in E as [E1 E2].
    apply gnode_eqb_ok in E1, E2. now subst.
  - simpl. apply in_app_iff. simpl. auto.
Qed.
Lemma new_flow_le c n c' : new_flow c = (n, c') -> cle c c' /\ n = NFlow (c_next c).
Proof.
  intros E. injection E as <- <-. split; auto. repeat split; simpl; [lia | apply incl_appl, incl_refl | apply incl_refl].
Qed.
Lemma new_end_le v c n c' : new_end v c = (n, c') -> cle c c' /\ n = NEnd (c_next c) v.
Proof.
  intros E. injection E as <- <-. split; auto. repeat split; simpl; [lia | apply incl_appl, incl_refl | apply incl_refl].
Qed.
Lemma chain_le e p n c q c' : chain e p n c = (q, c') -> cle c c' /\ q = Some n.
Proof.
  intros E. injection E as <- <-. split; auto. eapply cle_trans; [apply get_or_add_le | apply add_edge_le].
Qed.
Lemma chain_edge e p n c q c' : chain e (Some p) n c = (q, c') -> p <> e -> In (p, n) (c_edges c').
Proof. intros E H. injection E as <- <-. now apply add_edge_in. Qed.

Scheme stmt_mind := Induction for stmt Sort Prop with stmts_mind := Induction for stmts Sort Prop.
Combined Scheme stmt_mutind from stmt_mind, stmts_mind.

Lemma add_block_eq e ss pred scope c : add_block e ss pred scope c =
  let (send, c) := new_end scope c in
  let (q, c) := add_stmts e ss pred send scope c in
  (Some send, add_edge e q (Some send) c).
Proof. reflexivity. Qed.

(* The equations of add_stmt, in terms of add_block. *)
Definition add_init e (i : option (var * expr)) pred c :=
  match i with Some (x, _) => chain e pred (NDecl x) c | None => (pred, c) end.
Lemma add_if e i l k t hasf f pred send c :
  add_stmt e (SIf i l k t hasf f) pred send c =
      let (pred, c) := add_init e i pred c in
      let (cond, c) := chain e pred (NStmt l) c in
      let (mix, c) := new_flow c in
      let (t_end, c) := add_block e t cond (decls t) c in
      let c := add_edge e t_end (Some mix) c in
      if hasf then
        let (f_end, c) := add_block e f cond (decls f) c in
        (Some mix, add_edge e f_end (Some mix) c)
      else (Some mix, add_edge e cond (Some mix) c).
Proof. reflexivity. Qed.
Lemma add_while e i l k b hase el pred send c :
  add_stmt e (SWhile i l k b hase el) pred send c =
      let (pred, c) := add_init e i pred c in
      let (cond, c) := chain e pred (NStmt l) c in
      let (b_end, c) := add_block e b cond (decls b) c in
      let c := add_edge e b_end cond c in
      let (mix, c) := new_flow c in
      let c := add_edge e cond (Some mix) c in
      if hase then
        let (e_end, c) := add_block e el cond (decls el) c in
        (Some mix, add_edge e e_end (Some mix) c)
      else (Some mix, c).
Proof. reflexivity. Qed.
Lemma add_try e b k pred send c :
  add_stmt e (STry b k) pred send c =
      let (b_end, c) := add_block e b pred (decls b) c in
      let (after, c) := new_flow c in
      let c := add_edge e b_end (Some after) c in
      let (into, c) := new_flow c in
      let c := add_edge e b_end (Some into) c in
      let (k_end, c) := add_block e k (Some into) (decls k) c in
      (Some after, add_edge e k_end (Some after) c).
Proof. reflexivity. Qed.
Lemma add_blk e b pred send c : add_stmt e (SBlock b) pred send c = add_block e b pred (decls b) c.
Proof. reflexivity. Qed.
Lemma add_cons e s r pred send scope c :
  add_stmts e (SCons s r) pred send scope c =
      let (p, c) := add_stmt e s pred send c in
      if is_control s then
        match r with
        | SNil => (p, c)
        | SCons _ _ =>
            let (send', c) := new_end scope c in
            let (q, c) := add_stmts e r None send' scope c in
            let c := add_edge e q (Some send') c in
            let (mix, c) := new_flow c in
            let c := add_edge e p (Some mix) c in
            (Some mix, add_edge e (Some send') (Some mix) c)
        end
      else add_stmts e r p send scope c.
Proof. destruct r; reflexivity. Qed.

Ltac dlet E :=
  repeat match type of E with
         | (let (_, _) := ?t in _) = _ => let q := fresh "q" in let c := fresh "c" in let H := fresh "H" in
                                          destruct t as [q c] eqn:H
         | (let _ := _ in _) = _ => cbv zeta in E
         end.

Lemma add_init_le e i p c q c' : add_init e i p c = (q, c') -> cle c c'.
Proof. destruct i as [[x ex]|]; simpl; intros E; [now apply chain_le in E | injection E as <- <-; apply cle_refl]. Qed.

Section Le.
Variable e : gnode.
Definition le_stmt (s : stmt) := forall pred send c q c', add_stmt e s pred send c = (q, c') -> cle c c'.
Definition le_stmts (ss : stmts) := forall pred send scope c q c', add_stmts e ss pred send scope c = (q, c') -> cle c c'.
Lemma add_block_le ss : le_stmts ss -> forall pred scope c q c', add_block e ss pred scope c = (q, c') -> cle c c'.
Proof.
  intros IH pred scope c q c' E. rewrite add_block_eq in E. dlet E.
  injection E as <- <-. apply new_end_le in H as [H _]. apply IH in H0.
  eapply cle_trans; [eauto|]. eapply cle_trans; [eauto|]. apply add_edge_le.
Qed.
Ltac cle_solve :=
  repeat match goal with
         | H : add_init _ _ _ _ = _ |- _ => apply add_init_le in H
         | H : chain _ _ _ _ = _ |- _ => apply chain_le in H as [H _]
         | H : new_flow _ = _ |- _ => apply new_flow_le in H as [H _]
         | H : new_end _ _ = _ |- _ => apply new_end_le in H as [H _]
         end;
  repeat (match goal with
          | H : cle ?a ?b |- cle ?a _ => apply (cle_trans _ _ _ H); clear H
          | |- cle ?a (add_edge ?e ?p ?q ?b) => apply (cle_trans a b); [| apply add_edge_le]
          end); try apply cle_refl; auto.
Lemma add_le : (forall s, le_stmt s) /\ (forall ss, le_stmts ss).
Proof.
  apply stmt_mutind; unfold le_stmt.
  - intros l x ex pred send c q c' E. now apply chain_le in E.
  - intros l ex pred send c q c' E. now apply chain_le in E.
  - intros l x i pred send c q c' E. now apply chain_le in E.
  - intros i l k t IHt hasf f IHf pred send c q c' E. rewrite add_if in E. dlet E.
    pose proof (add_block_le t IHt) as Bt. pose proof (add_block_le f IHf) as Bf.
    apply Bt in H2. destruct hasf.
    + destruct (add_block e f q1 (decls f) _) as [q4 c4] eqn:H3. apply Bf in H3. injection E as <- <-.
      apply add_init_le in H. apply chain_le in H0 as [H0 _]. apply new_flow_le in H1 as [H1 _].
      eapply cle_trans; [exact H|]. eapply cle_trans; [exact H0|]. eapply cle_trans; [exact H1|].
      eapply cle_trans; [exact H2|]. eapply cle_trans; [apply add_edge_le|]. eapply cle_trans; [exact H3|]. apply add_edge_le.
    + injection E as <- <-.
      apply add_init_le in H. apply chain_le in H0 as [H0 _]. apply new_flow_le in H1 as [H1 _].
      eapply cle_trans; [exact H|]. eapply cle_trans; [exact H0|]. eapply cle_trans; [exact H1|].
      eapply cle_trans; [exact H2|]. eapply cle_trans; apply add_edge_le.
  - intros i l k b IHb hase el IHe pred send c q c' E. rewrite add_while in E. dlet E.
    pose proof (add_block_le b IHb) as Bt. pose proof (add_block_le el IHe) as Bf.
    apply Bt in H1.
    apply add_init_le in H. apply chain_le in H0 as [H0 _]. apply new_flow_le in H2 as [H2 _].
    destruct hase.
    + destruct (add_block e el q1 (decls el) _) as [q4 c4] eqn:H3. apply Bf in H3. injection E as <- <-.
      eapply cle_trans; [exact H|]. eapply cle_trans; [exact H0|]. eapply cle_trans; [exact H1|].
      eapply cle_trans; [apply add_edge_le|]. eapply cle_trans; [exact H2|].
      eapply cle_trans; [apply add_edge_le|]. eapply cle_trans; [exact H3|]. apply add_edge_le.
    + injection E as <- <-.
      eapply cle_trans; [exact H|]. eapply cle_trans; [exact H0|]. eapply cle_trans; [exact H1|].
      eapply cle_trans; [apply add_edge_le|]. eapply cle_trans; [exact H2|]. apply add_edge_le.
  - intros b IHb k IHk pred send c q c' E. rewrite add_try in E. dlet E.
    pose proof (add_block_le b IHb) as Bt. pose proof (add_block_le k IHk) as Bf.
    apply Bt in H. apply new_flow_le in H0 as [H0 _]. apply new_flow_le in H1 as [H1 _]. apply Bf in H2. injection E as <- <-.
    eapply cle_trans; [exact H|]. eapply cle_trans; [exact H0|]. eapply cle_trans; [apply add_edge_le|].
    eapply cle_trans; [exact H1|]. eapply cle_trans; [apply add_edge_le|]. eapply cle_trans; [exact H2|]. apply add_edge_le.
  - intros l o pred send c q c' E. destruct o; cbn -[chain] in E.
    + dlet E. injection E as <- <-. apply chain_le in H as [H _]. eapply cle_trans; [exact H|]. apply add_edge_le.
    + injection E as <- <-. apply add_edge_le.
  - intros l o pred send c q c' E. cbn -[chain] in E.
    dlet E. injection E as <- <-. apply chain_le in H as [H _]. eapply cle_trans; [exact H|]. apply add_edge_le.
  - intros l ex pred send c q c' E. now apply chain_le in E.
  - intros pred send c q c' E. injection E as <- <-. apply cle_refl.
  - intros pred send c q c' E. injection E as <- <-. apply cle_refl.
  - intros b IHb pred send c q c' E. rewrite add_blk in E. eapply add_block_le; eauto.
  - intros pred send scope c q c' E. injection E as <- <-. apply cle_refl.
  - intros s IHs r IHr pred send scope c q c' E. rewrite add_cons in E. dlet E. apply IHs in H.
    destruct (is_control s).
    + destruct r as [|s' r]; [injection E as <- <-; auto|].
      dlet E. injection E as <- <-. apply new_end_le in H0 as [H0 _]. apply IHr in H1. apply new_flow_le in H2 as [H2 _].
      eapply cle_trans; [exact H|]. eapply cle_trans; [exact H0|]. eapply cle_trans; [exact H1|].
      eapply cle_trans; [apply add_edge_le|]. eapply cle_trans; [exact H2|].
      eapply (cle_trans _ (add_edge e q0 (Some q3) c3)); [apply add_edge_le|].
      exact (add_edge_le e (Some q1) (Some q3) _).
    + apply IHr in E. eapply cle_trans; eauto.
Qed.
End Le.
