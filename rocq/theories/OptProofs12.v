(* Value propagation: the assignment in front of the return. *)
From Coq Require Import List Arith Bool ZArith Lia.
From Verif Require Import OptModel OptModel2 OptSpec OptSpec2 OptProofs1 OptProofs2 OptProofs3 OptProofs4 OptProofs5 OptProofs6 OptProofs7 OptProofs8 OptProofs9 OptProofs10 OptProofs11.
Import ListNotations.

Fixpoint sapp (a b : stmts) : stmts := match a with SNil => b | SCons s r => SCons s (sapp r b) end.
Lemma last_two_app ss s t : last_two ss = Some (s, t) -> exists pre, ss = sapp pre (SCons s (SCons t SNil)).
Proof.
  induction ss as [|u r IH]; [discriminate|]. simpl. destruct r as [|v r]; [discriminate|].
  destruct r as [|w r].
  - intros E. injection E as <- <-. exists SNil. reflexivity.
  - intros E. destruct (IH E) as (pre & ->). exists (SCons u pre). reflexivity.
Qed.
Lemma last_two_of_app pre s t : last_two (sapp pre (SCons s (SCons t SNil))) = Some (s, t).
Proof.
  induction pre as [|u pre IH]; [reflexivity|]. cbn [sapp last_two]. destruct pre as [|v pre]; [reflexivity|].
  cbn [sapp] in *. destruct (sapp pre (SCons s (SCons t SNil))) eqn:E; [destruct pre; discriminate | exact IH].
Qed.
Lemma last_of_app pre s : last_of (sapp pre (SCons s SNil)) = Some s.
Proof.
  induction pre as [|u pre IH]; [reflexivity|]. cbn [sapp last_of]. destruct (sapp pre (SCons s SNil)) eqn:E; [destruct pre; discriminate | exact IH].
Qed.
Lemma repl_app r a b : repl_stmts r (sapp a b) = sapp (repl_stmts r a) (repl_stmts r b).
Proof. induction a as [|s a IH]; [reflexivity|]. exact (f_equal (SCons (repl_stmt r s)) IH). Qed.
Lemma owns_app a b : owns (sapp a b) = owns a ++ owns b.
Proof. induction a as [|s a IH]; [reflexivity|]. cbn [sapp]. rewrite !owns_cons, IH. now rewrite app_assoc. Qed.
Lemma vnodes_app a b : vnodes (sapp a b) = vnodes a ++ vnodes b.
Proof. induction a as [|s a IH]; [reflexivity|]. cbn [sapp vnodes]. rewrite IH. now rewrite app_assoc. Qed.
Lemma repl_own r : (forall s, own (repl_stmt r s) = own s) /\ (forall ss, owns (repl_stmts r ss) = owns ss).
Proof.
  assert (I : forall i, map fst (init_info (repl_init r i)) = map fst (init_info i)) by (intros [[x e]|]; reflexivity).
  apply stmt_mutind; try reflexivity.
  - intros l x [e|]; reflexivity.
  - intros i l c t IHt h fb IHf. change (repl_stmt r (SIf i l c t h fb)) with (SIf (repl_init r i) l (repl r (NStmt l) c) (repl_stmts r t) h (repl_stmts r fb)).
    rewrite !own_if, I. now rewrite IHt, IHf.
  - intros i l c t IHt h fb IHf. change (repl_stmt r (SWhile i l c t h fb)) with (SWhile (repl_init r i) l (repl r (NStmt l) c) (repl_stmts r t) h (repl_stmts r fb)).
    rewrite !own_while, I. now rewrite IHt, IHf.
  - intros b IHb c IHc. change (repl_stmt r (STry b c)) with (STry (repl_stmts r b) (repl_stmts r c)). rewrite !own_try. congruence.
  - intros l [e|]; reflexivity.
  - intros l [e|]; reflexivity.
  - intros b IHb. exact IHb.
  - intros s IHs ss IHss. change (repl_stmts r (SCons s ss)) with (SCons (repl_stmt r s) (repl_stmts r ss)). rewrite !owns_cons. congruence.
Qed.
Lemma assign_at_own l : (forall s, match s with SIf _ _ _ a _ b | SWhile _ _ _ a _ b | STry a b =>
      ~ In (NStmt l) (owns a) -> ~ In (NStmt l) (owns b) -> assign_at l a = None /\ assign_at l b = None
    | SBlock a => ~ In (NStmt l) (owns a) -> assign_at l a = None | _ => True end) /\
  (forall ss, ~ In (NStmt l) (owns ss) -> assign_at l ss = None).
Proof.
  apply stmt_mutind; auto.
  intros s IHs ss IHss H. rewrite owns_cons, in_app_iff in H.
  destruct s; cbn [assign_at]; try (apply IHss; tauto).
  - destruct (Nat.eqb_spec l l0) as [-> | Hne]; [destruct H; left; simpl; auto | apply IHss; tauto].
  - destruct IHs as [-> ->]; try (intros X; apply H; left; rewrite own_if, in_app_iff; simpl; rewrite in_app_iff; auto). apply IHss. tauto.
  - destruct IHs as [-> ->]; try (intros X; apply H; left; rewrite own_while, in_app_iff; simpl; rewrite in_app_iff; auto). apply IHss. tauto.
  - destruct IHs as [-> ->]; try (intros X; apply H; left; rewrite own_try, in_app_iff; auto). apply IHss. tauto.
  - rewrite IHs; [apply IHss; tauto|]. intros X. apply H. left. exact X.
Qed.
Lemma remove_at_own l : (forall s, match s with SIf _ _ _ a _ b | SWhile _ _ _ a _ b | STry a b =>
      ~ In (NStmt l) (owns a) -> ~ In (NStmt l) (owns b) -> remove_at l a = a /\ remove_at l b = b
    | SBlock a => ~ In (NStmt l) (owns a) -> remove_at l a = a | _ => True end) /\
  (forall ss, ~ In (NStmt l) (owns ss) -> remove_at l ss = ss).
Proof.
  apply stmt_mutind; auto.
  intros s IHs ss IHss H. rewrite owns_cons, in_app_iff in H.
  destruct s; cbn [remove_at]; try (rewrite IHss; [reflexivity | tauto]).
  - destruct (Nat.eqb_spec l l0) as [-> | Hne]; [destruct H; left; simpl; auto | rewrite IHss; tauto].
  - destruct IHs as [-> ->]; try (intros X; apply H; left; rewrite own_if, in_app_iff; simpl; rewrite in_app_iff; auto). rewrite IHss; tauto.
  - destruct IHs as [-> ->]; try (intros X; apply H; left; rewrite own_while, in_app_iff; simpl; rewrite in_app_iff; auto). rewrite IHss; tauto.
  - destruct IHs as [-> ->]; try (intros X; apply H; left; rewrite own_try, in_app_iff; auto). rewrite IHss; tauto.
  - rewrite IHs; [rewrite IHss; tauto|]. intros X. apply H. left. exact X.
Qed.
Lemma assign_at_app l a b : ~ In (NStmt l) (owns a) -> assign_at l (sapp a b) = assign_at l b.
Proof.
  intros H. induction a as [|s a IH]; [reflexivity|]. rewrite owns_cons, in_app_iff in H.
  pose proof (proj2 (assign_at_own l) (SCons s SNil)) as X. rewrite owns_cons, in_app_iff in X. cbn [owns] in X.
  specialize (X ltac:(intros [Y | []]; tauto)). cbn [sapp assign_at] in *.
  destruct (match s with SAssign _ _ _ => _ | _ => _ end); [discriminate|]. apply IH. tauto.
Qed.
Lemma remove_at_app l a b : ~ In (NStmt l) (owns a) -> remove_at l (sapp a b) = sapp a (remove_at l b).
Proof.
  intros H. induction a as [|s a IH]; [reflexivity|]. rewrite owns_cons, in_app_iff in H.
  pose proof (proj2 (remove_at_own l) (SCons s SNil)) as X. rewrite owns_cons, in_app_iff in X. cbn [owns] in X.
  specialize (X ltac:(intros [Y | []]; tauto)). cbn [sapp]. rewrite <- IH by tauto. cbn [remove_at] in *.
  destruct s; try reflexivity; try (injection X; intros; congruence).
  destruct (l =? l0); [discriminate | reflexivity].
Qed.
Lemma set_last_app s' pre s t : set_last s' (sapp pre (SCons s (SCons t SNil))) = sapp pre (SCons s (SCons s' SNil)).
Proof.
  induction pre as [|u pre IH]; [reflexivity|]. cbn [sapp set_last]. destruct (sapp pre (SCons s (SCons t SNil))) eqn:E; [destruct pre; discriminate|].
  now rewrite IH.
Qed.
Lemma call_gen_mods : (forall e, incl (call_gen e) (mods e)) /\ (forall a, incl (call_gen_args a) (mods_args a)).
Proof.
  apply expr_mutind; intros; simpl; auto using incl_refl, incl_app_app.
  - apply incl_tl. auto.
  - intros y [<- | Hy]; simpl; auto.
Qed.

(* What leads to the last return. *)
Section Pred.
Variable e : gnode.
Variable He : meta' e.
Definition before (s : stmt) (a : gnode) : Prop :=
  match s with
  | SAssign l _ _ | SExpr l _ | SAssert l _ => a = NStmt l
  | _ => forall l, a <> NStmt l
  end.
Lemma before_ok s pred send c a c' : add_stmt e s pred send c = (Some a, c') -> is_control s = false -> no_jump s -> before s a.
Proof.
  intros E Hc Hj. destruct s; simpl in Hc, Hj; try discriminate; try tauto.
  - apply chain_le in E as [_ E]. now injection E as ->.
  - apply chain_le in E as [_ E]. now injection E as ->.
  - apply chain_le in E as [_ E]. injection E as ->. simpl. discriminate.
  - rewrite add_if in E. dlet E. apply new_flow_le in H1 as [_ ->]. simpl.
    destruct hasf; [match type of E with (let (_, _) := ?t in _) = _ => destruct t end|]; apply pair_inj in E as [E _]; injection E as <-; discriminate.
  - rewrite add_while in E. dlet E. apply new_flow_le in H2 as [_ ->]. simpl.
    destruct hase; [match type of E with (let (_, _) := ?t in _) = _ => destruct t end|]; apply pair_inj in E as [E _]; injection E as <-; discriminate.
  - apply chain_le in E as [_ E]. now injection E as ->.
  - rewrite add_blk, add_block_eq in E. dlet E. apply new_end_le in H as [_ ->]. apply pair_inj in E as [E _]. injection E as <-. simpl. discriminate.
Qed.
Lemma not_end l : NStmt l <> e.
Proof. intros <-. destruct He as [X _]. discriminate. Qed.
Lemma add_edge_new p q c a b : In (a, b) (c_edges (add_edge e p q c)) -> In (a, b) (c_edges c) \/ p = Some a /\ q = Some b.
Proof.
  unfold add_edge. destruct p as [p|], q as [q|]; auto. destruct (gnode_eqb p e); auto. destruct (existsb _ _); auto.
  simpl. intros H. apply in_app_iff in H as [H | [H | []]]; auto. injection H as -> ->. auto.
Qed.
Lemma last_own ss s n : last_of ss = Some s -> In n (own s) -> In n (owns ss).
Proof.
  induction ss as [|u r IH]; [discriminate|]. intros E Hn. rewrite owns_cons, in_app_iff. cbn [last_of] in E. destruct r as [|v r].
  - injection E as ->. auto.
  - right. apply IH; auto.
Qed.
Lemma into_last l o ss : forall pred send scope c q c', add_stmts e ss pred send scope c = (q, c') -> meta' send ->
  last_of ss = Some (SReturn l o) -> NoDup (owns ss) -> each_of no_jump ss ->
  forall a, In (a, NStmt l) (c_edges c') ->
   In (a, NStmt l) (c_edges c) \/ (ss = SCons (SReturn l o) SNil /\ pred = Some a) \/
   (exists s, last_two ss = Some (s, SReturn l o) /\ before s a).
Proof.
  induction ss as [|s ss IH]; [discriminate|]. intros pred send scope c q c' E Hs HL HN HJ a Ha.
  destruct ss as [|s2 ss].
  - simpl in HL. injection HL as ->. rewrite add_cons in E. dlet E. simpl is_control in E. cbv iota in E. apply pair_inj in E as [_ <-].
    cbn -[chain] in H. dlet H. apply pair_inj in H as [_ <-]. pose proof (chain_le _ _ _ _ _ _ H0) as [_ ->].
    apply add_edge_new in Ha as [Ha | [Ha Hb]]; [|injection Hb as Hb; destruct (not_end l); auto].
    apply pair_inj in H0 as [_ <-]. apply add_edge_new in Ha as [Ha | [Ha _]]; auto. left.
    unfold get_or_add in Ha. destruct (memn _ _); auto.
  - assert (HL' : last_of (SCons s2 ss) = Some (SReturn l o)) by exact HL.
    rewrite owns_cons in HN. apply NoDup_app_e in HN as (N1 & N2 & N3). destruct HJ as [HJ1 HJ2].
    pose proof (last_own _ _ (NStmt l) HL' (or_introl eq_refl)) as Ho.
    rewrite add_cons in E. dlet E.
    assert (T0 : In (a, NStmt l) (c_edges c0) -> In (a, NStmt l) (c_edges c)).
    { intros X. destruct (proj1 (tgt_all e He) s (own s) _ _ _ _ _ H Hs (incl_refl _) _ _ X) as [Y | [Y | Y]]; auto.
      - destruct (N3 _ Y Ho).
      - destruct Y as [Y _]. discriminate. }
    assert (LT : forall t, last_two (SCons s2 ss) = Some t -> last_two (SCons s (SCons s2 ss)) = Some t).
    { intros t Ht. destruct ss; [discriminate | exact Ht]. }
    destruct (is_control s) eqn:Ctl.
    + dlet E. apply pair_inj in E as [_ <-]. pose proof (proj2 (tg_end nil _ _ _ _ H0)) as Hm1. pose proof (proj2 (tg_flow nil _ _ _ H2)) as Hm3.
      apply add_edge_new in Ha as [Ha | [_ Ha]]; [|injection Ha as Ha; subst; destruct Hm3; discriminate].
      apply add_edge_new in Ha as [Ha | [_ Ha]]; [|injection Ha as Ha; subst; destruct Hm3; discriminate].
      injection H2 as _ <-. cbn [c_edges] in Ha.
      apply add_edge_new in Ha as [Ha | [_ Ha]]; [|injection Ha as Ha; subst; destruct Hm1; discriminate].
      destruct (IH _ _ _ _ _ _ H1 Hm1 HL' N2 HJ2 a Ha) as [X | [[_ X] | (t & X & Y)]]; [|discriminate|].
      * left. apply T0. injection H0 as _ <-. exact X.
      * right. right. exists t. split; auto.
    + destruct (IH _ _ _ _ _ _ E Hs HL' N2 HJ2 a Ha) as [X | [[X Y] | (t & X & Y)]].
      * auto.
      * right. right. exists s. injection X as -> ->. split; auto. subst q0. eapply before_ok; eauto.
        clear -HJ1. destruct s; apply HJ1.
      * right. right. exists t. split; auto.
Qed.
End Pred.

Lemma params_pred e ps : forall p c q c', fold_left (fun '(pred, c) (p : var * bool) => chain e pred (NDecl (fst p)) c) ps (p, c) = (q, c') ->
  (forall l, p <> Some (NStmt l)) -> forall l, q <> Some (NStmt l).
Proof.
  induction ps as [|x ps IH]; intros p c q c' E Hp.
  - now apply pair_inj in E as [<- _].
  - cbn [fold_left] in E. destruct (chain e p (NDecl (fst x)) c) as [q1 c1] eqn:E1. apply chain_le in E1 as [_ ->].
    eapply IH; eauto. discriminate.
Qed.
Lemma into_return f l o l' : last_of (f_body f) = Some (SReturn l o) -> NoDup (owns (f_body f)) -> each_of no_jump (f_body f) ->
  edge (build f) (NStmt l') (NStmt l) -> exists s, last_two (f_body f) = Some (s, SReturn l o) /\ before s (NStmt l').
Proof.
  intros HL HN HJ He. apply build_edges in He. rewrite build_raw_eq in He.
  destruct (add_params _ _ _) as [p c] eqn:E1. destruct (add_block _ _ _ _ _) as [q c2] eqn:E2.
  apply add_edge_new in He as [He | [_ He]]; [|discriminate].
  rewrite add_block_eq in E2. dlet E2. apply pair_inj in E2 as [_ <-]. pose proof (proj2 (tg_end nil _ _ _ _ H)) as Hm1.
  apply add_edge_new in He as [He | [_ He]]; [|injection He as He; subst; destruct Hm1; discriminate].
  destruct (into_last _ (meta_fend f) l o _ _ _ _ _ _ _ H0 Hm1 HL HN HJ _ He) as [X | [[_ X] | X]]; auto.
  - injection H as _ <-. cbn [c_edges] in X. destruct (tg_params _ _ _ _ _ _ E1 _ _ X) as [[] | [Y | [Y _]]]; [|discriminate].
    apply in_map_iff in Y as (? & Y & _). discriminate.
  - exfalso. eapply params_pred; [exact E1 | | exact X]. discriminate.
Qed.

Section Ret.
Variable W : Type.
Variable L : lang W.
Notation state := (state W).
Variable HM : forall l, moved W L l = false.
Variable f : func.
Variable d : dflow.
Variable HF : flow_result f d.
Let G := glob W L.
Variable HW : well_formed G f.
Variable HJ : each_of no_jump (f_body f).
Variable HC : each_of (vp_cond G) (f_body f).
Variable HR : ret_ok f.
Variables k fuel : nat.
Variable r : vres.
Variable HS : vsolve f d k fuel (rpo (build f)) = Some r.

Lemma execs_app n a b s : execs W L n (sapp a b) s = oseq W (execs W L n a s) (fun s => execs W L n b s).
Proof.
  revert s. induction a as [|c a IH]; intros s; [reflexivity|]. cbn [sapp]. rewrite !execs_cons.
  destruct (exec W L n c s); cbn [oseq]; auto.
Qed.
Lemma ret_direct ps n pre l' y e l l0 args g w : G y = false -> ~ In (y, true) ps ->
  run W L n {| f_params := ps; f_body := sapp pre (SCons (SReturn l (Some e)) SNil) |} args g w =
  run W L n {| f_params := ps; f_body := sapp pre (SCons (SAssign l' y e) (SCons (SReturn l (Some (EName l0 y))) SNil)) |} args g w.
Proof.
  intros Hy Hp. unfold run. simpl f_body. rewrite !execs_app. change (start W {| f_params := ps; f_body := sapp pre (SCons (SAssign l' y e) (SCons (SReturn l (Some (EName l0 y))) SNil)) |} args g w)
    with (start W {| f_params := ps; f_body := sapp pre (SCons (SReturn l (Some e)) SNil) |} args g w).
  destruct (execs W L n pre _) as [s|s|s|v s|x s|]; cbn [oseq]; auto.
  rewrite !execs_cons. cbn [exec]. destruct (eval W L e s) as [v t | x t]; cbn [obind oseq]; auto.
  rewrite execs_cons. cbn [exec]. rewrite eval_name, HM. cbn [obind oseq].
  assert (Eg : get W L (set W L t y v) y = v).
  { unfold get, set. fold G. rewrite Hy. simpl. unfold fupd. now rewrite Nat.eqb_refl. }
  rewrite Eg. f_equal.
  - unfold outs. apply map_ext_in. intros [z b] Hz. apply filter_In in Hz as [Hz Hb]. simpl in *. subst b.
    rewrite (loc_set W L y v t Hy). destruct (Nat.eqb_spec z y) as [-> | Hne]; auto. contradiction.
  - unfold set. fold G. now rewrite Hy.
  - unfold set. fold G. now rewrite Hy.
Qed.
(* The name that is returned is not one that the assignment in front of the return made known. *)
Lemma ret_name l l0 x0 lx x pre l' y e : f_body f = sapp pre (SCons (SAssign l' y e) (SCons (SReturn l (Some (EName l0 x0))) SNil)) ->
  upstream (build f) (NStmt l) = [NStmt l'] -> repl_name r (NStmt l) l0 x0 = EName lx x -> In x (y :: call_gen e) -> x = x0.
Proof.
  intros HB Hu Hr Hx. destruct (solved_all W L f d HW HC k fuel r HS) as (_ & S2 & S3 & _ & _).
  unfold repl_name in Hr. destruct (v_in r (NStmt l)) as [m|] eqn:Em; [|now injection Hr].
  destruct (look m x0) as [a|] eqn:Ea; [|now injection Hr]. destruct (look (v_out r (NStmt l)) x0) as [b|]; [|now injection Hr].
  destruct (rval_eqb a b && rv_prop a) eqn:Eb; [|now injection Hr]. apply andb_true_iff in Eb as [_ Ep].
  destruct (rv_expr a) as [|l1 c1|l1 x1] eqn:Ex; [now injection Hr | discriminate|]. injection Hr as -> ->.
  destruct (S2 (NStmt l)) as (A1 & _); [congruence|]. rewrite Em, Hu in A1. injection A1 as ->. simpl map in Ea.
  assert (F : fact (v_out r (NStmt l')) x0 (RName lx x)).
  { destruct (meet_spec [v_out r (NStmt l')] x0) as [_ M]. destruct (M (RName lx x)) as [_ (o & [<- | []] & Fo)]; auto. exists a. auto. }
  destruct (v_in r (NStmt l')) as [m1|] eqn:Em1.
  2:{ rewrite (S3 _ Em1) in F. destruct F as (q & F & _). discriminate. }
  destruct (S2 (NStmt l')) as (_ & o & B1 & B2); [congruence|]. apply B2 in F.
  rewrite (vstep_node W L f d HW k (NStmt l') (VAssign y e)) in B1; [|reflexivity |].
  2:{ rewrite HB, vnodes_app. apply in_app_iff. right. simpl. auto. }
  cbn [vtransfer] in B1. destruct (resolve _ _ e) as [r0|]; [|discriminate]. injection B1 as <-.
  apply fact_taints in F as (F & F1 & F2).
  assert (Hxy : x = y).
  { destruct Hx as [<- | Hx]; auto. apply call_gen_mods in Hx. destruct (F2 x Hx). reflexivity. }
  subst x. apply fact_put in F as [(<- & _) | [_ F]]; auto. apply fact_inval in F as [_ F]. destruct F. reflexivity.
Qed.
Theorem vprop_run n args g w : run W L n (vprop f d r) args g w = run W L n f args g w.
Proof.
  rewrite <- (repl_run W L HM f d HF HW HJ HC k fuel r HS n args g w).
  unfold vprop, ret_prop. set (b := repl_stmts r (f_body f)).
  destruct (last_of b) as [[| | | | | | |l [ex|]| | | |]|] eqn:HL; try reflexivity. destruct ex; try reflexivity.
  destruct (upstream (build f) (NStmt l)) as [|p [|? ?]] eqn:Hu; try reflexivity; try (destruct p; reflexivity).
  destruct p as [| | | |l']; try reflexivity.
  destruct (assign_at l' b) as [[y e]|] eqn:HA; [|reflexivity].
  destruct (mem x (t_gen (transfer_of f (NStmt l'))) && _) eqn:Hg; [|reflexivity]. apply andb_true_iff in Hg as [Hg _]. apply mem_in in Hg.
  assert (HN : NoDup (owns (f_body f))) by exact (nodup_info W L f HW).
  (* the last statement of the original body *)
  assert (HL0 : exists o, last_of (f_body f) = Some (SReturn l o) /\ repl_stmt r (SReturn l o) = SReturn l (Some (EName l0 x))).
  { subst b. clear -HL. induction (f_body f) as [|s ss IH]; [discriminate|].
    change (repl_stmts r (SCons s ss)) with (SCons (repl_stmt r s) (repl_stmts r ss)) in HL. destruct ss as [|s2 ss].
    - change (repl_stmts r SNil) with SNil in HL. simpl last_of in HL. injection HL as HL.
      destruct s; try discriminate; try (destruct i; discriminate); try (destruct e; discriminate).
      destruct e as [e|]; [|discriminate]. cbn [repl_stmt] in HL. injection HL as -> HL. exists (Some e). split; auto. cbn [repl_stmt]. now rewrite HL.
    - change (last_of (repl_stmts r (SCons s2 ss)) = Some (SReturn l (Some (EName l0 x)))) in HL.
      destruct (IH HL) as (o & H1 & H2). exists o. split; auto. }
  destruct HL0 as (o & HL0 & HRo).
  assert (He : edge (build f) (NStmt l') (NStmt l)) by (apply upstream_in; rewrite Hu; simpl; auto).
  destruct (into_return f l o l' HL0 HN HJ He) as (s & HT & HB). pose proof HT as HT0.
  apply last_two_app in HT as (pre & Hpre). rewrite Hpre, owns_app in HN. apply NoDup_app_e in HN as (_ & HN2 & HN).
  assert (Hin : forall s0, In (NStmt l') (own s0) -> s = s0 -> ~ In (NStmt l') (owns pre)).
  { intros s0 H1 -> H2. apply (HN _ H2). rewrite owns_cons, in_app_iff. auto. }
  assert (Eb : b = sapp (repl_stmts r pre) (SCons (repl_stmt r s) (SCons (SReturn l (Some (EName l0 x))) SNil))).
  { unfold b. rewrite Hpre, repl_app. f_equal. rewrite <- HRo. reflexivity. }
  assert (Hs : exists e0, s = SAssign l' y e0 /\ e = repl r (NStmt l') e0 /\ ~ In (NStmt l') (owns pre)).
  { rewrite Eb in HA. destruct s; simpl in HB; try (destruct (HB l'); reflexivity).
    - injection HB as ->. specialize (Hin (SAssign l1 x0 e0) (or_introl eq_refl) eq_refl).
      rewrite assign_at_app in HA by (rewrite (proj2 (repl_own r)); auto). cbn [repl_stmt assign_at] in HA. rewrite Nat.eqb_refl in HA.
      injection HA as <- <-. exists e0. auto.
    - exfalso. injection HB as ->. specialize (Hin (SExpr l1 e0) (or_introl eq_refl) eq_refl).
      rewrite assign_at_app in HA by (rewrite (proj2 (repl_own r)); auto). discriminate.
    - exfalso. injection HB as ->. specialize (Hin (SAssert l1 e0) (or_introl eq_refl) eq_refl).
      rewrite assign_at_app in HA by (rewrite (proj2 (repl_own r)); auto). discriminate. }
  destruct Hs as (e0 & -> & -> & Hnp).
  (* the name *)
  destruct o as [er|]; [|discriminate]. cbn [repl_stmt] in HRo.
  assert (Her : exists l1 x0, er = EName l1 x0 /\ repl_name r (NStmt l) l1 x0 = EName l0 x).
  { destruct er; try discriminate. cbn [repl] in HRo. injection HRo as HRo. eauto. }
  destruct Her as (l1 & x0 & -> & Hrn).
  assert (Hgen : t_gen (transfer_of f (NStmt l')) = y :: call_gen e0).
  { rewrite (tr_in W L f HW (NStmt l') (tr_assign y e0)); [reflexivity|].
    assert (X : forall a c, info (sapp a c) = info a ++ info c).
    { induction a as [|s0 a IHa]; intros c; [reflexivity|]. cbn [sapp info]. rewrite IHa. now rewrite app_assoc. }
    rewrite Hpre, X, in_app_iff. right. simpl. auto. }
  rewrite Hgen in Hg. assert (Hx : x = x0) by (eapply ret_name; eauto). subst x0.
  unfold ret_ok in HR. rewrite HT0 in HR.
  destruct (Nat.eqb_spec x y) as [-> | Hne].
  2:{ exfalso. destruct Hg as [Hg | Hg]; [now apply Hne | contradiction]. }
  assert (HGy : G y = false).
  { destruct (v_ok_at W L f HW HC (NStmt l') (VAssign y e0)) as [X _]; auto. rewrite Hpre, vnodes_app. apply in_app_iff. right. simpl. auto. }
  rewrite Eb, set_last_app. rewrite remove_at_app by (rewrite (proj2 (repl_own r)); auto).
  cbn [repl_stmt remove_at]. rewrite Nat.eqb_refl. now apply ret_direct.
Qed.
End Ret.
