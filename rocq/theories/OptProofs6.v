(* The dead-code pass keeps what the function does. *)
From Coq Require Import List Arith Bool ZArith Lia.
From Verif Require Import OptModel OptSpec OptProofs1 OptProofs2 OptProofs3 OptProofs4 OptProofs5.
Import ListNotations.

Section FlowFacts.
Variable f : func.
Variable d : dflow.
Variable HF : flow_result f d.
Let g := build f.
Let E := c_edges (build_raw f).

Lemma reach_node n : reach E n -> In n (g_nodes g).
Proof. apply (build_keeps f). Qed.
Lemma reach_kept p n : reach E p -> In (p, n) E -> edge g p n.
Proof. apply (build_keeps f). Qed.
Lemma fr_inv : inv g (gen_of f) d /\ (forall n, In n (g_nodes g) -> solved g (gen_of f) d n).
Proof.
  destruct HF as (fuel & order & HO & HS). destruct (flow_solve_ok _ _ _ _ _ _ (inv0 _ _) HS) as [I S].
  split; auto. intros n Hn. apply S. now apply HO.
Qed.
Lemma fr_in_node q n : In q (d_in d n) -> In n (g_nodes g).
Proof.
  intros H. destruct fr_inv as [I _]. destruct q as [x p]. pose proof (i_in _ _ _ I n x p H) as [_ A].
  inversion A; subst; eapply (build_closed f); eauto.
Qed.
Lemma fr_in_gen x p n : In (x, p) (d_in d n) -> In x (gen_of f p) /\ In p (g_nodes g).
Proof.
  intros H. destruct fr_inv as [I _]. pose proof (i_in _ _ _ I n x p H) as [A B]. split; auto.
  eapply arrives_src; eauto. apply build_closed.
Qed.
Lemma fr_edge p n q : edge g p n -> In q (d_out d p) -> In q (d_in d n).
Proof. intros He Hq. destruct fr_inv as [_ S]. destruct (S n) as (S1 & _); [eapply (build_closed f); eauto|]. eapply S1; eauto. Qed.
Lemma fr_out q n : In q (d_in d n) -> ~ kills_p (gen_of f) n (fst q) -> In q (d_out d n).
Proof. intros H K. destruct fr_inv as [_ S]. destruct (S n (fr_in_node _ _ H)) as (_ & _ & S3). auto. Qed.
Lemma fr_gen x n : In n (g_nodes g) -> In x (gen_of f n) -> In (x, n) (d_out d n).
Proof. intros H K. destruct fr_inv as [_ S]. destruct (S n H) as (_ & S2 & _). auto. Qed.
Lemma gen_meta n : is_meta n = true -> gen_of f n = [].
Proof.
  intros H. unfold gen_of. rewrite transfer_of_out; auto. intros Hi. apply in_map_iff in Hi as ((m & t) & <- & Hi).
  apply info_nodes in Hi. simpl in H. congruence.
Qed.
End FlowFacts.

(* ---- removing the unused statements ---- *)
Section Unused.
Variable W : Type.
Variable L : lang W.
Notation state := (state W).
Variable HM : forall l, moved W L l = false.
Variable f : func.
Variable d : dflow.
Variable HF : flow_result f d.
Let G := glob W L.
Variable HW : well_formed G f.
Variable S : Prop.   (* assignments may read their own target *)
Let g := build f.
Let E := c_edges (build_raw f).
Let R := unused f G d.

Definition differ (h : gnode -> facts) (V : list var) (n : gnode) (s s' : state) : Prop :=
  same_world W s s' /\ forall v, In v V -> G v = false -> loc s v <> loc s' v -> exists p, R p = true /\ In (v, p) (h n).
Definition excL (x : exc) : Prop := x = XOp.
Definition excR (x : exc) : Prop := x = XOp /\ S.
Notation prim_ok := (prim_ok W L L (differ (d_in d)) (differ (d_out d)) (same_world W) excL excR).

Lemma nodup_info : NoDup (map fst (info (f_body f))).
Proof. destruct HW as (_ & _ & N). clear -N. induction (map (fun p => NDecl (fst p)) (f_params f)) as [|a r IH]; auto. inversion N; auto. Qed.
Lemma tr_in n t : In (n, t) (info (f_body f)) -> transfer_of f n = t.
Proof. apply transfer_of_in, nodup_info. Qed.

Lemma R_not p : R p = true -> used f G d p = false /\ t_keep (transfer_of f p) = false.
Proof.
  unfold R, unused. intros H. apply andb_true_iff in H as [H H4]. apply andb_true_iff in H as [H H3].
  apply negb_true_iff in H3, H4. auto.
Qed.
(* What a node reads comes from statements that are kept, but for what it writes itself. *)
Lemma removed_unread v p n : R p = true -> In n (g_nodes g) -> In (v, p) (d_in d n) -> In v (t_read (transfer_of f n)) -> p = n.
Proof.
  intros HR Hn Hi Hv. destruct (gnode_dec p n) as [|Hne]; auto. exfalso.
  apply R_not in HR as [HR _]. unfold used in HR. apply orb_false_iff in HR as [_ HR].
  destruct (fr_in_gen f d HF _ _ _ Hi) as [Hg _].
  assert (X : existsb (fun x => existsb (fun m => negb (gnode_eqb m p) && mem x (t_read (transfer_of f m)) &&
                                 existsb (fun p0 => gnode_eqb (snd p0) p) (d_in d m)) (g_nodes (build f))) (t_gen (transfer_of f p)) = true).
  { apply existsb_exists. exists v. split; [exact Hg|]. apply existsb_exists. exists n. split; [exact Hn|].
    apply andb_true_iff. split; [apply andb_true_iff; split|].
    - apply negb_true_iff, gnode_eqb_no. auto.
    - now apply mem_in.
    - apply existsb_exists. exists (v, p). split; auto. simpl. apply gnode_eqb_refl. }
  congruence.
Qed.
Lemma reads_agree V n e s s' :
  differ (d_in d) V n s s' -> In n (g_nodes g) -> visible G V e -> incl (names e) (t_read (transfer_of f n)) ->
  (R n = true -> forall x, In x (names e) -> ~ In x (gen_of f n)) -> agree W L (names e) s s'.
Proof.
  intros [_ HD] Hn Hv Hi Hs x Hx HG. destruct (Z.eq_dec (loc s x) (loc s' x)) as [|Hne]; auto. exfalso.
  destruct (Hv x Hx) as [Hg | HV]; [unfold G in Hg; congruence|].
  destruct (HD x HV HG Hne) as (p & HR & Hp). assert (p = n) by (eapply removed_unread; eauto). subst p.
  eapply Hs; eauto. eapply fr_in_gen; eauto.
Qed.
Lemma kept_out V V' n s s' t t' :
  (forall k sc, n <> NEnd k sc) ->
  differ (d_in d) V n s s' -> same_world W t t' ->
  (forall y, ~ In y (gen_of f n) -> loc s y = loc s' y -> loc t y = loc t' y) ->
  (forall v, In v V' -> In v (gen_of f n) -> G v = false -> loc t v = loc t' v \/ R n = true /\ In n (g_nodes g)) ->
  (forall v, In v V' -> In v V \/ In v (gen_of f n)) ->
  differ (d_out d) V' n t t'.
Proof.
  intros HE [_ HD] HSW HK Hg HV. split; auto. intros v Hv HG Hne.
  destruct (in_dec Nat.eq_dec v (gen_of f n)) as [Hi | Hi].
  - destruct (Hg v Hv Hi HG) as [H | [H1 H2]]; [contradiction|]. exists n. split; auto. now apply (fr_gen f d HF).
  - destruct (HV v Hv) as [HVv | ?]; [|contradiction].
    destruct (HD v HVv HG) as (p & HR & Hp); [intros Heq; apply Hne; auto|]. exists p. split; auto.
    apply (fr_out f d HF); auto. simpl. intros [? | (k & sc & -> & _)]; [contradiction|]. eapply HE; eauto.
Qed.

Lemma node_not_end s n : node_of s = Some n -> forall k sc, n <> NEnd k sc.
Proof.
  destruct s; simpl; try discriminate; try (destruct e; try discriminate); intros H; injection H as <-; discriminate.
Qed.

(* Expressions at nodes that are kept. *)
Lemma kept_eval V n c s s' : In n (g_nodes g) -> R n = false -> incl (names c) (t_read (transfer_of f n)) ->
  visible G V c -> differ (d_in d) V n s s' -> rmatch W s s' (eval W L c s) (eval W L c s') /\ agree W L (names c) s s'.
Proof.
  intros Hn HR Hi Hv HD.
  assert (A : agree W L (names c) s s') by (eapply reads_agree; eauto; congruence).
  split; auto. exact (eval_agree W L HM c s s' (proj1 HD) A).
Qed.
Lemma kept_gen V n s s' t t' xs : (forall k sc, n <> NEnd k sc) -> differ (d_in d) V n s s' -> kept W s s' t t' ->
  agree W L xs s s' -> incl (gen_of f n) xs -> differ (d_out d) V n t t'.
Proof.
  intros HE HD [K1 K2] A Hg. apply (kept_out V V n s s'); auto.
Qed.

Lemma cond_keeps V l c : visible G V c -> In (NStmt l, tr_expr true c) (info (f_body f)) -> reach E (NStmt l) ->
  cond_ok W L L (differ (d_in d)) (differ (d_out d)) (same_world W) excL excR V (NStmt l) c c.
Proof.
  intros Hv Hi Hr s s' HD. apply tr_in in Hi. right.
  assert (HR : R (NStmt l) = false).
  { destruct (R (NStmt l)) eqn:X; auto. apply R_not in X as [_ X]. rewrite Hi in X. discriminate. }
  destruct (kept_eval V (NStmt l) c s s') as [M A]; auto; [now apply reach_node | rewrite Hi; apply incl_refl |].
  assert (O : forall t t', kept W s s' t t' -> differ (d_out d) V (NStmt l) t t').
  { intros t t' K. eapply kept_gen; eauto; try discriminate. unfold gen_of. rewrite Hi. apply call_gen_names. }
  destruct (eval W L c s) as [v t | x t], (eval W L c s') as [v' t' | x' t']; simpl in M; try tauto; destruct M as [<- K].
  - exists t'. auto.
  - exists t'. split; auto. apply K.
Qed.

Lemma set_world_l x v t t' : G x = false -> same_world W t t' -> same_world W (set W L t x v) t'.
Proof. intros H [? ?]. unfold set. fold G. rewrite H. split; auto. Qed.
Lemma set_other x v (t : state) y : G x = false -> y <> x -> loc (set W L t x v) y = loc t y.
Proof.
  intros H Hy. unfold set. fold G. rewrite H. simpl. unfold fupd. apply Nat.eqb_neq in Hy. now rewrite Hy.
Qed.

(* A declaration that is kept. *)
Lemma decl_kept V l x i m σ σ' : G x = false -> ~ In x V -> sc_opt G V i -> transfer_of f (NDecl x) = tr_decl x i ->
  In (NDecl x) (g_nodes g) -> differ (d_in d) V (NDecl x) σ σ' ->
  pmatch W (differ (d_out d)) (same_world W) excL excR V (x :: V) (NDecl x)
    (exec W L m (SDecl l x i) σ) (exec W L m (SDecl l x i) σ').
Proof.
  intros HGx HxV Hv Ht Hnode HD. right. destruct i as [e|]; cbn [exec].
  - assert (A : agree W L (names e) σ σ').
    { eapply reads_agree; eauto; [rewrite Ht; apply incl_refl|]. intros HR y Hy. unfold gen_of. rewrite Ht.
      pose proof (R_not _ HR) as [_ Hk]. rewrite Ht in Hk. simpl in Hk. simpl. rewrite (no_call_gen _ Hk).
      intros [<- | []]. destruct (Hv x Hy); [congruence | contradiction]. }
    pose proof (eval_agree W L HM e σ σ' (proj1 HD) A) as M.
    destruct (eval W L e σ) as [v t | y t], (eval W L e σ') as [v' t' | y' t']; simpl in M; try tauto; destruct M as [<- K].
    + simpl. exists (set W L t' x v). split; auto. pose proof (set_kept W L x v t t' (proj1 K)) as K2.
      pose proof (kept_trans _ _ _ _ _ _ _ K K2) as [K3 K4]. eapply (kept_out V (x :: V) (NDecl x) σ σ'); eauto; try discriminate.
      * unfold gen_of. rewrite Ht. simpl. intros w Hw [-> | Hw2] HGw; left.
        -- apply set_same; auto. apply K.
        -- apply K4. apply A; auto. now apply call_gen_names.
      * unfold gen_of. rewrite Ht. simpl. intros w [-> | Hw]; auto.
    + simpl. exists t'. split; auto. apply K.
  - exists (set W L σ' x (dflt W L x)). split; auto. pose proof (set_kept W L x (dflt W L x) σ σ' (proj1 HD)) as [K3 K4].
    eapply (kept_out V (x :: V) (NDecl x) σ σ'); eauto; try discriminate.
    + unfold gen_of. rewrite Ht. simpl. intros w Hw [-> | []] HGw; left. apply set_same; auto. apply HD.
    + unfold gen_of. rewrite Ht. simpl. intros w [-> | Hw]; auto.
Qed.
Lemma decl_keeps V l x i m σ σ' : G x = false -> ~ In x V -> sc_opt G V i -> transfer_of f (NDecl x) = tr_decl x i ->
  In (NDecl x) (g_nodes g) -> differ (d_in d) V (NDecl x) σ σ' ->
  pmatch W (differ (d_out d)) (same_world W) excL excR V (x :: V) (NDecl x)
    (exec W L m (SDecl l x i) σ) (exec_opt W L m (if R (NDecl x) then match i with Some e => Some (SExpr l e) | None => None end else Some (SDecl l x i)) σ').
Proof.
  intros HGx HxV Hv Ht Hnode HD. destruct (R (NDecl x)) eqn:HR.
  2:{ now apply decl_kept. }
  right. pose proof (R_not _ HR) as [_ Hk]. rewrite Ht in Hk. simpl in Hk.
  assert (Hgen : gen_of f (NDecl x) = [x]).
  { unfold gen_of. rewrite Ht. destruct i as [e|]; simpl; auto. now rewrite (no_call_gen _ Hk). }
  assert (O : forall t t' v, kept W σ σ' t t' -> differ (d_out d) (x :: V) (NDecl x) (set W L t x v) t').
  { intros t t' v [K1 K2]. eapply (kept_out V (x :: V) (NDecl x) σ σ'); eauto; try discriminate.
    - now apply set_world_l.
    - rewrite Hgen. intros y Hy Heq. rewrite set_other; auto. intros ->. apply Hy. simpl. auto.
    - rewrite Hgen. intros y [-> | Hy]; simpl; auto. }
  unfold exec_opt. destruct i as [e|]; cbn [exec].
  - assert (A : agree W L (names e) σ σ').
    { eapply reads_agree; eauto; [rewrite Ht; apply incl_refl|]. intros _ y Hy. rewrite Hgen.
      intros [<- | []]. destruct (Hv x Hy); [congruence | contradiction]. }
    pose proof (eval_agree W L HM e σ σ' (proj1 HD) A) as M.
    destruct (eval W L e σ) as [v t | y t], (eval W L e σ') as [v' t' | y' t']; simpl in M; try tauto; destruct M as [<- K].
    + simpl. exists t'. auto.
    + simpl. exists t'. split; auto. apply K.
  - exists σ'. split; auto. apply O. apply kept_refl, HD.
Qed.

Lemma prim_keeps V s n : node_of s = Some n -> scoped G V s -> dce_cond G S s -> incl (info_stmt s) (info (f_body f)) -> reach E n ->
  prim_ok V n s (rm1 R s) (declared V s).
Proof.
  intros Hn Hsc Hd HI Hr m σ σ' HD.
  pose proof (node_not_end _ _ Hn) as HNE. pose proof (reach_node f n Hr) as Hnode.
  destruct s as [l x e|l e|l x i|i l c t hasf fs|i l c b hase es|b c|l o|l o|l e| | |b]; simpl in Hn; try discriminate.
  - (* SAssign *)
    injection Hn as <-. assert (Ht : transfer_of f (NStmt l) = tr_assign x e) by (apply tr_in, HI; simpl; auto).
    destruct Hsc as [_ Hv]. destruct Hd as [HGx Hd]. cbn [rm1 exec]. destruct (R (NStmt l)) eqn:HR.
    + pose proof (R_not _ HR) as [_ Hk]. rewrite Ht in Hk. simpl in Hk.
      assert (Hgen : gen_of f (NStmt l) = [x]) by (unfold gen_of; rewrite Ht; simpl; now rewrite (no_call_gen _ Hk)).
      assert (O : forall t t' v, kept W σ σ' t t' -> differ (d_out d) V (NStmt l) (set W L t x v) t').
      { intros t t' v [K1 K2]. eapply (kept_out V V (NStmt l) σ σ'); eauto.
        - now apply set_world_l.
        - rewrite Hgen. intros y Hy Heq. rewrite set_other; auto. intros ->. apply Hy. simpl. auto. }
      destruct (in_dec Nat.eq_dec x (names e)) as [Hx | Hx].
      * destruct (Hd Hx) as [HS Hu].
        destruct (eval_pure W L HM e Hk Hu σ) as [(v & Ev) | Ev]; rewrite Ev.
        2:{ left. left. exists XOp, σ. split; reflexivity. }
        destruct (eval_pure W L HM e Hk Hu σ') as [(v' & Ev') | Ev']; unfold exec_opt; cbn [exec]; rewrite Ev'.
        2:{ left. right. exists XOp, σ'. repeat split; auto. }
        right. simpl. exists σ'. split; auto. apply O. apply kept_refl. apply HD.
      * assert (A : agree W L (names e) σ σ').
        { eapply reads_agree; eauto; [rewrite Ht; apply incl_refl|]. intros _ y Hy. rewrite Hgen. intros [-> | []]. auto. }
        pose proof (eval_agree W L HM e σ σ' (proj1 HD) A) as M. right. unfold exec_opt. cbn [exec].
        destruct (eval W L e σ) as [v t | y t], (eval W L e σ') as [v' t' | y' t']; simpl in M; try tauto; destruct M as [<- K].
        -- simpl. exists t'. auto.
        -- simpl. exists t'. split; auto. apply K.
    + destruct (kept_eval V (NStmt l) e σ σ') as [M A]; auto; [rewrite Ht; apply incl_refl|].
      right. unfold exec_opt. cbn [exec].
      destruct (eval W L e σ) as [v t | y t], (eval W L e σ') as [v' t' | y' t']; simpl in M; try tauto; destruct M as [<- K].
      * simpl. exists (set W L t' x v). split; auto. pose proof (set_kept W L x v t t' (proj1 K)) as K2.
        pose proof (kept_trans _ _ _ _ _ _ _ K K2) as [K3 K4]. eapply (kept_out V V (NStmt l) σ σ'); eauto.
        unfold gen_of. rewrite Ht. simpl. intros w Hw [-> | Hw2] HGw; left.
        -- apply set_same; auto. apply K.
        -- apply K4. apply A; auto. now apply call_gen_names.
      * simpl. exists t'. split; auto. apply K.
  - (* SExpr *)
    injection Hn as <-. assert (Ht : transfer_of f (NStmt l) = tr_expr false e) by (apply tr_in, HI; simpl; auto).
    simpl in Hsc. cbn [rm1 exec]. destruct (R (NStmt l)) eqn:HR.
    + pose proof (R_not _ HR) as [_ Hk]. rewrite Ht in Hk. simpl in Hk. apply orb_false_iff in Hk as [Hk Hw].
      assert (Hgen : gen_of f (NStmt l) = []) by (unfold gen_of; rewrite Ht; simpl; now rewrite (no_call_gen _ Hk)).
      assert (Hu : no_update e = true).
      { destruct e; simpl in Hd, Hw, Hk |- *; auto; try discriminate.
        - destruct (indirect e) eqn:X; [|discriminate]. now apply indirect_no_update.
        - apply orb_false_iff in Hk as [Hk1 Hk2].
          destruct (indirect e1 ++ indirect e2) eqn:X; [|discriminate]. apply app_eq_nil in X as [X1 X2].
          now rewrite !indirect_no_update.
        - destruct Hd as [-> ->]. auto.
        - destruct Hd as [-> ->]. auto. }
      destruct (eval_pure W L HM e Hk Hu σ) as [(v & Ev) | Ev]; rewrite Ev.
      2:{ left. left. exists XOp, σ. split; reflexivity. }
      right. simpl. exists σ'. split; auto.
      apply (kept_out V V (NStmt l) σ σ'); auto. apply HD.
    + destruct (kept_eval V (NStmt l) e σ σ') as [M A]; auto; [rewrite Ht; apply incl_refl|].
      right. unfold exec_opt. cbn [exec].
      destruct (eval W L e σ) as [v t | y t], (eval W L e σ') as [v' t' | y' t']; simpl in M; try tauto; destruct M as [<- K].
      * simpl. exists t'. split; auto. eapply kept_gen; eauto. unfold gen_of. rewrite Ht. apply call_gen_names.
      * simpl. exists t'. split; auto. apply K.
  - (* SDecl *)
    injection Hn as <-. assert (Ht : transfer_of f (NDecl x) = tr_decl x i) by (apply tr_in, HI; simpl; auto).
    destruct Hsc as [[HGx HxV] Hv]. unfold exec_opt. cbn [rm1 declared].
    now apply decl_keeps.
  - (* SThrow *)
    destruct o as [e|]; [|discriminate]. injection Hn as <-.
    assert (Ht : transfer_of f (NStmt l) = tr_expr true e) by (apply tr_in, HI; simpl; auto).
    assert (HR : R (NStmt l) = false).
    { destruct (R (NStmt l)) eqn:X; auto. apply R_not in X as [_ X]. rewrite Ht in X. discriminate. }
    destruct (kept_eval V (NStmt l) e σ σ') as [M A]; auto; [rewrite Ht; apply incl_refl|].
    cbn [rm1]. rewrite HR. unfold exec_opt. cbn [exec]. right.
    destruct (eval W L e σ) as [v t | y t], (eval W L e σ') as [v' t' | y' t']; simpl in M; try tauto; destruct M as [<- K];
      simpl; exists t'; (split; [auto | apply K]).
  - (* SReturn *)
    injection Hn as <-.
    assert (Ht : transfer_of f (NStmt l) = tr_kept o) by (apply tr_in, HI; simpl; auto).
    assert (HR : R (NStmt l) = false).
    { destruct (R (NStmt l)) eqn:X; auto. apply R_not in X as [_ X]. rewrite Ht in X. discriminate. }
    cbn [rm1]. rewrite HR. unfold exec_opt. right. destruct o as [e|]; cbn [exec].
    + destruct (kept_eval V (NStmt l) e σ σ') as [M A]; auto; [rewrite Ht; apply incl_refl|].
      destruct (eval W L e σ) as [v t | y t], (eval W L e σ') as [v' t' | y' t']; simpl in M; try tauto; destruct M as [<- K];
        simpl; exists t'; (split; [auto | ]); [|apply K].
      eapply kept_gen; eauto. unfold gen_of. rewrite Ht. apply call_gen_names.
    + exists σ'. split; auto. apply (kept_out V V (NStmt l) σ σ'); auto; try apply HD. unfold gen_of. rewrite Ht. simpl. tauto.
  - (* SAssert *)
    injection Hn as <-.
    assert (Ht : transfer_of f (NStmt l) = tr_kept (Some e)) by (apply tr_in, HI; simpl; auto).
    assert (HR : R (NStmt l) = false).
    { destruct (R (NStmt l)) eqn:X; auto. apply R_not in X as [_ X]. rewrite Ht in X. discriminate. }
    cbn [rm1]. rewrite HR. unfold exec_opt. right. cbn [exec].
    destruct (kept_eval V (NStmt l) e σ σ') as [M A]; auto; [rewrite Ht; apply incl_refl|].
    destruct (eval W L e σ) as [v t | y t], (eval W L e σ') as [v' t' | y' t']; simpl in M; try tauto; destruct M as [<- K]; simpl.
    + destruct (truth v); exists t'; (split; [auto|]); [|apply K].
      eapply kept_gen; eauto. unfold gen_of. rewrite Ht. apply call_gen_names.
    + exists t'. split; auto. apply K.
Qed.

Lemma init_keeps V x e : fresh G V x -> visible G V e -> incl [(NDecl x, tr_decl x (Some e))] (info (f_body f)) -> reach E (NDecl x) ->
  prim_ok V (NDecl x) (SDecl 0 x (Some e)) (init_stmt (rm_init R (Some (x, e)))) (x :: V).
Proof.
  intros [HGx HxV] Hv HI Hr m σ σ' HD.
  assert (Ht : transfer_of f (NDecl x) = tr_decl x (Some e)) by (apply tr_in, HI; simpl; auto).
  pose proof (reach_node f _ Hr) as Hnode.
  cbn [rm_init]. destruct (R (NDecl x) && simple_init e) eqn:B.
  - apply andb_true_iff in B as [HR Hs]. pose proof (R_not _ HR) as [_ Hk]. rewrite Ht in Hk. simpl in Hk.
    assert (Hu : no_update e = true) by (destruct e; auto; discriminate).
    assert (Hgen : gen_of f (NDecl x) = [x]) by (unfold gen_of; rewrite Ht; simpl; now rewrite (no_call_gen _ Hk)).
    cbn [init_stmt exec]. unfold exec_opt.
    destruct (eval_pure W L HM e Hk Hu σ) as [(v & Ev) | Ev]; rewrite Ev.
    2:{ left. left. exists XOp, σ. split; reflexivity. }
    right. simpl. exists σ'. split; auto. eapply (kept_out V (x :: V) (NDecl x) σ σ'); eauto; try discriminate.
    + apply set_world_l; auto. apply HD.
    + rewrite Hgen. intros y Hy Heq. rewrite set_other; auto. intros ->. apply Hy. simpl. auto.
    + rewrite Hgen. intros y [-> | Hy]; simpl; auto.
  - pose proof (decl_keeps V 0 x (Some e) m σ σ' HGx HxV Hv Ht Hnode HD) as H.
    cbn [init_stmt]. destruct (R (NDecl x)) eqn:HR.
    + apply decl_kept; auto.
    + exact H.
Qed.
End Unused.

Section Dce.
Variable W : Type.
Variable L : lang W.
Notation state := (state W).
Variable f : func.
Let G := glob W L.
Variable HW : well_formed G f.
Variable HJ : each_of no_jump (f_body f).
Let E := c_edges (build_raw f).
Let Vp := map fst (f_params f).

Lemma Vp_disj : disj Vp (decls (f_body f)).
Proof. apply (scoped_disj G). apply HW. Qed.
Lemma param_gen x : In x Vp -> gen_of f (NDecl x) = [].
Proof.
  intros Hx. unfold gen_of. rewrite transfer_of_out; auto. destruct HW as (_ & _ & N).
  apply in_map_iff in Hx as (p & <- & Hp). intros Hi. clear HJ.
  induction (f_params f) as [|q r IH]; [destruct Hp|]. simpl in N. inversion N as [|? ? N1 N2]; subst.
  destruct Hp as [-> | Hp]; [|now apply IH]. apply N1. apply in_app_iff. auto.
Qed.

Theorem dce_unused d S : (forall l, moved W L l = false) -> flow_result f d -> each_of (dce_cond G S) (f_body f) ->
  forall n args g w,
  let f' := {| f_params := f_params f; f_body := rm_stmts (unused f G d) (f_body f) |} in
  same_seen W (run W L n f args g w) (run W L n f' args g w) \/ failed W (run W L n f args g w) \/
  S /\ failed W (run W L n f' args g w).
Proof.
  intros HM HF HC n args g w f'.
  pose proof (rm_trs W L L E (differ W L f d (d_in d)) (differ W L f d (d_out d)) (same_world W) excL (excR S)
    (unused f G d) G (info (f_body f)) (dce_cond G S)
    (fun V s m => prim_keeps W L HM f d HF HW S V s m) (init_keeps W L HM f d HF HW S) (cond_keeps W L HM f d HF HW S)) as T.
  assert (HD : forall l c, In (NStmt l, tr_expr true c) (info (f_body f)) -> unused f G d (NStmt l) = true -> ~ reach E (NStmt l)).
  { intros l c Hi HR. apply (R_not W L f d) in HR as [_ HR]. rewrite (tr_in W L f HW _ _ Hi) in HR. discriminate. }
  destruct (proj2 (T HD) (f_body f) Vp (proj1 HW) HC HJ (incl_refl _)) as (V' & TR). clear T.
  assert (M : fmatch W f (differ W L f d (d_in d)) (same_world W) excL (excR S)
            (execs W L n (f_body f) (start W f args g w)) (execs W L n (rm_stmts (unused f G d) (f_body f)) (start W f args g w))).
  { eapply sim_run; [.. | exact TR | exact Vp_disj |].
    - intros V p m s s' Hr He [H1 H2]. split; auto. intros v Hv HG Hne. destruct (H2 v Hv HG Hne) as (q & Hq & Hq').
      exists q. split; auto. eapply (fr_edge f d HF); eauto. now apply reach_kept.
    - intros V k s s' [H1 H2]. split; auto. intros v Hv HG Hne. destruct (H2 v Hv HG Hne) as (q & Hq & Hq').
      exists q. split; auto. apply (fr_out f d HF); auto. intros [K | (k' & sc & K & _)]; [|discriminate].
      rewrite gen_meta in K; auto.
    - intros V V1 k sc s s' [H1 H2] Hi Hd _ _. split; auto. intros v Hv HG Hne. destruct (H2 v (Hi _ Hv) HG Hne) as (q & Hq & Hq').
      exists q. split; auto. apply (fr_out f d HF); auto. intros [K | (k' & sc' & K & Ki)].
      + rewrite gen_meta in K; auto.
      + injection K as <- <-. now apply (Hd v).
    - intros V V1 m s s' [H1 H2] Hi _. split; auto.
    - intros V x s s' Hx [H1 H2]. split; auto. intros v Hv HG Hne. destruct (H2 v Hv HG Hne) as (q & Hq & Hq').
      exists q. split; auto. apply (fr_out f d HF); auto. intros [K | (k' & sc & K & _)]; [|discriminate].
      rewrite param_gen in K; auto.
    - split; [split; reflexivity|]. intros v _ _ Hne. congruence. }
  assert (EQ : forall V s s', incl Vp V -> differ W L f d (d_in d) V (fend f) s s' -> outs W f s = outs W f s' /\ glb s = glb s' /\ wld s = wld s').
  { intros V s s' HV [[H1 H2] H3]. split; [|auto]. unfold outs. apply map_ext_in. intros [x b] Hx. apply filter_In in Hx as [Hx Hb].
    simpl in *. subst b. assert (Hx' : In x Vp) by (apply in_map_iff; exists (x, true); auto).
    destruct (Z.eq_dec (loc s x) (loc s' x)) as [|Hne]; auto. exfalso.
    destruct (H3 x (HV _ Hx') (proj1 (proj2 HW) x Hx') Hne) as (p & HR & Hp).
    apply R_not in HR as [HR _]. unfold used in HR. apply orb_false_iff in HR as [HR _]. apply orb_false_iff in HR as [HR _].
    assert (X : existsb (fun m => match m with
                    | NEnd _ _ => existsb (fun p0 => gnode_eqb (snd p0) p && outlives f G (fst p0)) (d_in d m)
                    | _ => false end) (g_nodes (build f)) = true); [|fold G in X; fold G in HR; congruence].
    apply existsb_exists. exists (fend f). split; [eapply (fr_in_node f d HF); eauto|]. simpl.
    apply existsb_exists. exists (x, p). split; auto. simpl. rewrite gnode_eqb_refl. simpl.
    unfold outlives. apply orb_true_iff. right. apply existsb_exists. exists (x, true). split; auto. simpl. now rewrite Nat.eqb_refl. }
  unfold run. simpl f_body. destruct M as [M | M].
  { destruct M as [(x & t & Ex & Hx) | (y & t & Ey & Hy & HS)].
    - right. left. rewrite Ex. red in Hx. subst x. exact I.
    - right. right. split; auto. subst y. change (start W f' args g w) with (start W f args g w). rewrite Ey. exact I. }
  left. change (start W f' args g w) with (start W f args g w).
  destruct (execs W L n (f_body f) (start W f args g w)) as [s|s|s|v s|x s|]; simpl in M; try tauto.
  - destruct M as (s' & V & -> & HV & HI). destruct (EQ V s s' HV HI) as (H1 & H2 & H3). simpl.
    unfold outs in *. simpl. congruence.
  - destruct M as (s' & V & -> & HV & HI). destruct (EQ V s s' HV HI) as (H1 & H2 & H3). simpl.
    unfold outs in *. simpl. congruence.
  - destruct M as (s' & -> & H1 & H2). simpl. auto.
  - rewrite M. reflexivity.
Qed.

(* ---- removing what is unreachable ---- *)
Lemma unreachable_not n : unreachable f n = true -> ~ reach E n.
Proof.
  unfold unreachable. intros H Hr. apply andb_true_iff in H as [H H3]. apply andb_true_iff in H as [_ H2].
  apply negb_true_iff in H2. destruct Hr as [|p n Hr He]; [discriminate|].
  pose proof (reach_kept f _ _ Hr He) as X. apply upstream_in in X. destruct (upstream (build f) n); [destruct X | discriminate].
Qed.
Definition IEQ (V : list var) (n : gnode) (s s' : state) : Prop := s = s'.
Definition XF (x : exc) : Prop := False.
Lemma pmatch_refl V V' n s m o : node_of s = Some n -> pmatch W IEQ eq XF XF V V' n (exec W L m s o) (exec W L m s o).
Proof.
  intros H. right. destruct s; simpl in H; try discriminate.
  - cbn [exec]. destruct (eval W L e o); simpl; unfold IEQ; eauto.
  - cbn [exec]. destruct (eval W L e o); simpl; unfold IEQ; eauto.
  - destruct i; cbn [exec]; [destruct (eval W L e o)|]; simpl; unfold IEQ; eauto.
  - destruct e; [|discriminate]. cbn [exec]. destruct (eval W L e o); simpl; unfold IEQ; eauto.
  - destruct e; cbn [exec]; [destruct (eval W L e o)|]; simpl; unfold IEQ; eauto.
  - cbn [exec]. destruct (eval W L e o); simpl; unfold IEQ; eauto. destruct (truth a); eauto.
Qed.
Theorem dce_unreachable n args g w :
  run W L n {| f_params := f_params f; f_body := rm_stmts (unreachable f) (f_body f) |} args g w = run W L n f args g w.
Proof.
  assert (T : exists V', trs W L L E IEQ IEQ eq XF XF (fun _ _ => True) Vp (f_body f) (rm_stmts (unreachable f) (f_body f)) V').
  { eapply (rm_trs W L L E IEQ IEQ eq XF XF (unreachable f) G (info (f_body f)) (fun _ => True)).
    - intros V s m Hn _ _ _ Hr k σ σ' <-.
      assert (X : rm1 (unreachable f) s = Some s).
      { assert (unreachable f m = false) by (destruct (unreachable f m) eqn:U; auto; apply unreachable_not in U; contradiction).
        destruct s; simpl in Hn; try discriminate; try (destruct e; try discriminate); injection Hn as <-; simpl; rewrite H; auto. }
      rewrite X. now apply pmatch_refl.
    - intros V x e _ _ _ Hr k σ σ' <-.
      assert (X : unreachable f (NDecl x) = false) by (destruct (unreachable f (NDecl x)) eqn:U; auto; apply unreachable_not in U; contradiction).
      simpl rm_init. rewrite X. simpl init_stmt. now apply pmatch_refl.
    - intros V l c _ _ _ σ σ' <-. right. destruct (eval W L c σ); unfold IEQ; eauto.
    - intros l c _ HR. now apply unreachable_not.
    - apply HW.
    - clear. generalize (f_body f). apply (stmts_mind (fun s => each (fun _ => True) s) (fun ss => each_of (fun _ => True) ss)); simpl; auto.
    - exact HJ.
    - apply incl_refl. }
  destruct T as (V' & T).
  assert (M : fmatch W f IEQ eq XF XF (execs W L n (f_body f) (start W f args g w)) (execs W L n (rm_stmts (unreachable f) (f_body f)) (start W f args g w))).
  { eapply sim_run; [.. | exact T | exact Vp_disj |]; unfold IEQ; auto. }
  unfold run. simpl f_body. change (start W _ args g w) with (start W f args g w).
  destruct M as [[(? & ? & _ & []) | (? & ? & _ & [])] | M].
  destruct (execs W L n (f_body f) (start W f args g w)) as [s|s|s|v s|x s|]; simpl in M; try tauto.
  - destruct M as (s' & V & -> & HV & <-). reflexivity.
  - destruct M as (s' & V & -> & HV & <-). reflexivity.
  - destruct M as (s' & -> & <-). reflexivity.
  - rewrite M. reflexivity.
Qed.
End Dce.
