(* The simulation between a function and the same function with its last uses moved. *)
From Coq Require Import List Arith Bool ZArith Lia.
From Verif Require Import OptModel OptModel2 OptSpec OptSpec2 OptMvModel OptMvSpec OptProofs1 OptProofs2 OptProofs3 OptProofs4 OptProofs5 OptProofs6 OptProofs7 OptProofs8 OptProofs9 OptMvProofs OptMvProofs2 OptMvProofs3.
Import ListNotations.

Lemma decls_local G : (forall s V, scoped G V s -> forall x, In x (decls_stmt s) -> G x = false) /\
  (forall ss V, scoped_of G V ss -> forall x, In x (decls ss) -> G x = false).
Proof.
  assert (J : forall V i x, sc_init G V i -> In x (match i with Some (x, _) => [x] | None => [] end) -> G x = false).
  { intros V [[y e]|] x; simpl; [|tauto]. intros [[H _] _] [<- | []]. auto. }
  apply stmt_mutind; cbn [decls_stmt decls scoped scoped_of]; intros; try contradiction; rewrite ?in_app_iff in *.
  - destruct H as [[H _] _]. destruct H0 as [<- | []]. auto.
  - destruct H1 as (H1 & _ & H3 & H4). destruct H2 as [H2 | [H2 | H2]]; eauto.
  - destruct H1 as (H1 & _ & H3 & H4). destruct H2 as [H2 | [H2 | H2]]; eauto.
  - destruct H1 as (H3 & H4). destruct H2 as [H2 | H2]; eauto.
  - eauto.
  - destruct H1 as (H3 & H4). destruct H2 as [H2 | H2]; eauto.
Qed.

(* ---- a body against itself in another language ---- *)
Section Id.
Variable W : Type.
Variables L L' : lang W.
Variable E : list (gnode * gnode).
Variables IN OUT : list var -> gnode -> state W -> state W -> Prop.
Variable XR : state W -> state W -> Prop.
Variables excL excR : exc -> Prop.
Variable G : var -> bool.
Variable I : list (gnode * transfer).
Variable X : list exinfo.
Notation prim_ok := (prim_ok W L L' IN OUT XR excL excR).
Notation cond_ok := (cond_ok W L L' IN OUT XR excL excR).
Notation any := (fun _ _ : list var => True).
Notation trs := (trs W L L' E IN OUT XR excL excR any).
Notation tr := (tr W L L' E IN OUT XR excL excR any).
Variable H_prim : forall V s n, node_of s = Some n -> scoped G V s -> incl (info_stmt s) I -> incl (ex_stmt s) X -> reach E n ->
  prim_ok V n s (Some s) (declared V s).
Variable H_cond : forall V l c, visible G V c -> In (NStmt l, tr_expr true c) I -> In (NStmt l, c, true) X -> reach E (NStmt l) -> cond_ok V (NStmt l) c c.

Lemma id_init_ok V i : sc_init G V i -> incl (init_info i) I -> incl (ex_init i) X ->
  init_ok W L L' E IN OUT XR excL excR V i i (with_init V i).
Proof.
  intros Hi HI HX. destruct i as [[x e]|]; simpl in *; [|auto]. destruct Hi as [Hf Hv].
  split; [intros y Hy; simpl; auto|]. split; [apply incl_refl|]. intros Hr. apply (H_prim V (SDecl 0 x (Some e))); simpl; auto. split; auto.
Qed.
Lemma id_trs :
  (forall s V, scoped G V s -> each no_jump s -> incl (info_stmt s) I -> incl (ex_stmt s) X -> tr V s (Some s) (declared V s)) /\
  (forall ss V, scoped_of G V ss -> each_of no_jump ss -> incl (info ss) I -> incl (ex_stmts ss) X ->
     exists V', trs V ss ss V').
Proof.
  apply stmt_mutind.
  - intros l x e V Hs _ HI HX. eapply tr_prim; [reflexivity | apply incl_refl | apply incl_refl |]. intros Hr.
    apply (H_prim V (SAssign l x e)); auto.
  - intros l e V Hs _ HI HX. eapply tr_prim; [reflexivity | apply incl_refl | apply incl_refl |]. intros Hr.
    apply (H_prim V (SExpr l e)); auto.
  - intros l x i V Hs _ HI HX. eapply tr_prim; [reflexivity | simpl; apply incl_tl, incl_refl | apply incl_refl |]. intros Hr.
    apply (H_prim V (SDecl l x i)); auto.
  - intros i l c t IHt hasf f IHf V (Hi & Hc & Ht & Hf) (_ & Jt & Jf) HI HX. simpl in HI, HX.
    assert (HIc : In (NStmt l, tr_expr true c) I) by (apply HI, in_app_iff; simpl; auto).
    assert (HXc : In (NStmt l, c, true) X) by (apply HX, in_app_iff; simpl; auto).
    pose proof (incl_cons_r _ _ _ (incl_app_r _ _ _ HI)) as HIr. pose proof (incl_cons_r _ _ _ (incl_app_r _ _ _ HX)) as HXr.
    destruct (IHt _ Ht Jt (incl_app_l _ _ _ HIr) (incl_app_l _ _ _ HXr)) as (Vt & Tt).
    destruct (IHf _ Hf Jf (incl_app_r _ _ _ HIr) (incl_app_r _ _ _ HXr)) as (Vf & Tf).
    eapply tr_if; eauto.
      * apply id_init_ok; auto; [now apply incl_app_l in HI | now apply incl_app_l in HX].
      * now apply (scoped_disj G).
      * now apply (scoped_disj G).
      * apply incl_refl.
      * destruct i as [[x e]|]; simpl; [apply incl_tl|]; apply incl_refl.
  - intros i l c t IHt hasf f IHf V (Hi & Hc & Ht & Hf) (_ & Jt & Jf) HI HX. simpl in HI, HX.
    assert (HIc : In (NStmt l, tr_expr true c) I) by (apply HI, in_app_iff; simpl; auto).
    assert (HXc : In (NStmt l, c, true) X) by (apply HX, in_app_iff; simpl; auto).
    pose proof (incl_cons_r _ _ _ (incl_app_r _ _ _ HI)) as HIr. pose proof (incl_cons_r _ _ _ (incl_app_r _ _ _ HX)) as HXr.
    destruct (IHt _ Ht Jt (incl_app_l _ _ _ HIr) (incl_app_l _ _ _ HXr)) as (Vt & Tt).
    destruct (IHf _ Hf Jf (incl_app_r _ _ _ HIr) (incl_app_r _ _ _ HXr)) as (Vf & Tf).
    eapply tr_while; eauto.
      * apply id_init_ok; auto; [now apply incl_app_l in HI | now apply incl_app_l in HX].
      * now apply (scoped_disj G).
      * now apply (scoped_disj G).
      * apply incl_refl.
      * destruct i as [[x e]|]; simpl; [apply incl_tl|]; apply incl_refl.
  - intros b IHb c IHc V _ [[] _].
  - intros l o V Hs [Hj _] HI HX. destruct o as [e|]; [|destruct Hj].
    eapply tr_prim; [reflexivity | apply incl_refl | apply incl_refl |]. intros Hr. apply (H_prim V (SThrow l (Some e))); auto.
  - intros l o V Hs _ HI HX. eapply tr_prim; [reflexivity | apply incl_refl | apply incl_refl |]. intros Hr.
    apply (H_prim V (SReturn l o)); auto.
  - intros l e V Hs _ HI HX. eapply tr_prim; [reflexivity | apply incl_refl | apply incl_refl |]. intros Hr.
    apply (H_prim V (SAssert l e)); auto.
  - intros V _ [[] _].
  - intros V _ [[] _].
  - intros b IHb V Hs [_ Jb] HI HX. destruct (IHb _ Hs Jb HI HX) as (V' & T). simpl. eapply tr_block; eauto.
    now apply (scoped_disj G).
  - intros V _ _ _ _. exists V. constructor.
  - intros s IHs r IHr V [Hs Hr] [Js Jr] HI HX. simpl in HI, HX.
    specialize (IHs _ Hs Js (incl_app_l _ _ _ HI) (incl_app_l _ _ _ HX)). change (SCons s r) with (ocons (Some s) r) at 2. destruct (is_control s) eqn:C.
    + exists (declared V s). eapply trs_ctl; eauto.
    + destruct (IHr _ Hr Jr (incl_app_r _ _ _ HI) (incl_app_r _ _ _ HX)) as (V' & T). exists V'. eapply trs_cons; eauto.
Qed.
End Id.

Section Moves.
Variable W : Type.
Variable L : lang W.
Notation state := (state W).
Notation G := (glob W L).
Variable HM : forall l, moved W L l = false.
Variable f : func.
Variable HW : well_formed G f.
Variable HJ : each_of no_jump (f_body f).
Variable HA : each_of mv_cond (f_body f).
Variable HN : NoDup (uses_stmts (f_body f)).
Variable fuel : nat.
Variable r : lres.
Variable HS : lsolve f fuel = Some r.
Variable left : var -> Z.
Notation M := (moveable f r).
Notation L' := (with_moves L M left).
Notation g := (build f).
Notation E := (c_edges (build_raw f)).
Notation D := (decls (f_body f)).
Notation needed := (needed_after g (transfer_of f)).
Notation Vp := (map fst (f_params f)).
Notation same_world := (same_world W).

Definition IN (V : list var) (n : gnode) (s s' : state) : Prop :=
  same_world s s' /\ forall v, G v = false ->
    (In v (t_read (transfer_of f n)) \/ (~ In v (t_write (transfer_of f n)) /\ needed v n) \/ ~ In v D) -> loc s v = loc s' v.
Definition OUT (V : list var) (n : gnode) (s s' : state) : Prop :=
  same_world s s' /\ forall v, G v = false -> (needed v n \/ ~ In v D) -> loc s v = loc s' v.
Definition XR (s s' : state) : Prop := same_world s s' /\ forall v, G v = false -> ~ In v D -> loc s v = loc s' v.
Definition none (x : exc) : Prop := False.

Lemma D_local x : In x D -> G x = false.
Proof. destruct HW as (H & _). eapply (decls_local G); eauto. Qed.
Lemma tr_in n t : In (n, t) (info (f_body f)) -> transfer_of f n = t.
Proof. apply transfer_of_in. destruct HW as (_ & _ & N). clear -N. induction (f_params f); simpl in N; auto. inversion N; auto. Qed.

(* Evaluation at a node. *)
Lemma eval_node V n e b s s' : reach E n -> In (n, e, b) (ex_stmts (f_body f)) -> incl (names e) (t_read (transfer_of f n)) -> IN V n s s' ->
  match eval W L e s, eval W L' e s' with
  | RVal v t, RVal v' t' => v = v' /\ same_world t t' /\
      (forall y, G y = false -> ((In y (t_write (transfer_of f n)) -> In y (names e)) /\ needed y n) \/ ~ In y D -> loc t y = loc t' y)
  | RExc x t, RExc x' t' => x = x' /\ XR t t'
  | _, _ => False
  end.
Proof.
  intros Hr Hx Hi [H1 H2].
  assert (MV : forall x, In x (mvs M (occ e)) -> In x D /\ cnt (names e) x = 1 /\ ~ needed x n).
  { intros x Hm. apply mvs_in in Hm as (l & Ho & Hl). eapply (moved_facts f fuel r HS HA HN n e b l x) in Hl; eauto using reach_leads. tauto. }
  pose proof (eval_moves W L M left HM e s s' H1) as K.
  assert (A : agree W L (names e) s s') by (intros x Hn Hg; apply H2; auto).
  assert (O : okm W L M (names e) (occ e)) by (intros x Hm; destruct (MV x Hm) as (B1 & B2 & _); split; auto using D_local).
  specialize (K A O).
  assert (B : forall t t', keptb W (mvs M (occ e)) s s' t t' ->
    same_world t t' /\ (forall y, G y = false -> ((In y (t_write (transfer_of f n)) -> In y (names e)) /\ needed y n) \/ ~ In y D -> loc t y = loc t' y)).
  { intros t t' [K1 K2]. split; auto. intros y Hg Hy. apply K2.
    - intros Hm. destruct (MV y Hm) as (B1 & _ & B3). tauto.
    - destruct Hy as [[Hy1 Hy2] | Hy]; [|apply H2; auto]. destruct (in_dec Nat.eq_dec y (names e)) as [Hn | Hn]; [now apply A|].
      destruct (in_dec Nat.eq_dec y (t_write (transfer_of f n))) as [Hw | Hw]; [exfalso; auto | apply H2; auto]. }
  destruct (eval W L e s) as [v t | x t], (eval W L' e s') as [v' t' | x' t']; simpl in K; try tauto.
  - destruct K as [<- K]. split; auto.
  - destruct K as [<- K]. split; auto. destruct (B _ _ K) as [B1 B2]. split; auto.
Qed.
(* ... followed by setting a variable. *)
Lemma set_out x v t t' (P : var -> Prop) : same_world t t' -> (forall y, G y = false -> y <> x -> P y -> loc t y = loc t' y) ->
  same_world (set W L t x v) (set W L' t' x v) /\ forall y, G y = false -> P y -> loc (set W L t x v) y = loc (set W L' t' x v) y.
Proof.
  intros [H1 H2] H. change (set W L' t' x v) with (set W L t' x v). unfold set. destruct (G x) eqn:Gx.
  - split; [split; simpl; auto; now rewrite H1|]. simpl. intros y Hg Hp. apply H; auto. intros ->. congruence.
  - split; [split; simpl; auto|]. simpl. intros y Hg Hp. unfold fupd. destruct (y =? x) eqn:Ey; auto. apply H; auto. now apply Nat.eqb_neq.
Qed.

Lemma incl_top e : incl (top_write e) (names e).
Proof.
  assert (N : forall e, incl (indirect e) (names e)) by (intros e0; destruct e0; simpl; auto using incl_refl, incl_nil_l).
  assert (A : forall a, incl (indirect_args a) (names_args a)).
  { induction a; simpl; auto using incl_refl, incl_app_app. intros y [-> | Hy]; simpl; auto. }
  destruct e; simpl; auto using incl_nil_l, incl_app_app. intros y [-> | Hy]; simpl; auto. right. now apply N.
Qed.

Notation prim_ok := (prim_ok W L L' IN OUT XR none none).
Lemma prim_moves V s n : node_of s = Some n -> scoped G V s -> incl (info_stmt s) (info (f_body f)) -> incl (ex_stmt s) (ex_stmts (f_body f)) ->
  reach E n -> prim_ok V n s (Some s) (declared V s).
Proof.
  intros Hn Hs HI HX Hr m σ σ' HIN. right.
  destruct s as [l x e|l e|l x i|i l c t hasf e|i l c b hase e|b c|l o|l o|l e| | |b]; try discriminate.
  - injection Hn as <-. pose proof (tr_in _ _ (HI _ (or_introl eq_refl))) as Ht. pose proof (HX _ (or_introl eq_refl)) as Hx.
    pose proof (eval_node V (NStmt l) e true σ σ' Hr Hx) as K. rewrite Ht in K. specialize (K (incl_refl _) HIN).
    cbn [exec exec_opt]. destruct (eval W L e σ) as [v t | z t], (eval W L' e σ') as [v' t' | z' t']; try tauto; destruct K as [<- K]; simpl.
    + eexists. split; [reflexivity|]. apply set_out; [apply K|]. intros y Hg Hy P. apply K; auto. destruct P as [P | P]; [left | auto].
      split; auto. cbn. intros [<- | []]. congruence.
    + exists t'. auto.
  - injection Hn as <-. pose proof (tr_in _ _ (HI _ (or_introl eq_refl))) as Ht. pose proof (HX _ (or_introl eq_refl)) as Hx.
    pose proof (eval_node V (NStmt l) e true σ σ' Hr Hx) as K. rewrite Ht in K. specialize (K (incl_refl _) HIN).
    cbn [exec exec_opt]. destruct (eval W L e σ) as [v t | z t], (eval W L' e σ') as [v' t' | z' t']; try tauto; destruct K as [<- K]; simpl.
    + eexists. split; [reflexivity|]. split; [apply K|]. intros y Hg P. apply K; auto. destruct P as [P | P]; [left | auto].
      split; auto. apply incl_top.
    + exists t'. auto.
  - injection Hn as <-. pose proof (tr_in _ _ (HI _ (or_introl eq_refl))) as Ht. destruct i as [e|].
    + pose proof (HX _ (or_introl eq_refl)) as Hx.
      pose proof (eval_node V (NDecl x) e true σ σ' Hr Hx) as K. rewrite Ht in K. specialize (K (incl_refl _) HIN).
      cbn [exec exec_opt]. destruct (eval W L e σ) as [v t | z t], (eval W L' e σ') as [v' t' | z' t']; try tauto; destruct K as [<- K]; simpl.
      * eexists. split; [reflexivity|]. apply set_out; [apply K|]. intros y Hg Hy P. apply K; auto. destruct P as [P | P]; [left | auto].
        split; auto. intros [].
      * exists t'. auto.
    + cbn [exec exec_opt]. eexists. split; [reflexivity|]. destruct HIN as [H1 H2]. apply set_out; auto. intros y Hg Hy P. apply H2; auto.
      rewrite Ht. cbn. tauto.
  - destruct o as [e|]; [|discriminate]. injection Hn as <-. pose proof (tr_in _ _ (HI _ (or_introl eq_refl))) as Ht. pose proof (HX _ (or_introl eq_refl)) as Hx.
    pose proof (eval_node V (NStmt l) e true σ σ' Hr Hx) as K. rewrite Ht in K. specialize (K (incl_refl _) HIN).
    cbn [exec exec_opt]. destruct (eval W L e σ) as [v t | z t], (eval W L' e σ') as [v' t' | z' t']; try tauto; destruct K as [<- K]; simpl; exists t'; auto.
    split; auto. split; [apply K|]. intros y Hg P. apply K; auto.
  - injection Hn as <-. pose proof (tr_in _ _ (HI _ (or_introl eq_refl))) as Ht. destruct o as [e|].
    + pose proof (HX _ (or_introl eq_refl)) as Hx.
      pose proof (eval_node V (NStmt l) e false σ σ' Hr Hx) as K. rewrite Ht in K. specialize (K (incl_refl _) HIN).
      cbn [exec exec_opt]. destruct (eval W L e σ) as [v t | z t], (eval W L' e σ') as [v' t' | z' t']; try tauto; destruct K as [<- K]; simpl; exists t'; auto.
      split; auto. split; [apply K|]. intros y Hg P. apply K; auto. cbn. tauto.
    + cbn [exec exec_opt]. exists σ'. split; auto. destruct HIN as [H1 H2]. split; auto. intros y Hg P. apply H2; auto. rewrite Ht. cbn. tauto.
  - injection Hn as <-. pose proof (tr_in _ _ (HI _ (or_introl eq_refl))) as Ht. pose proof (HX _ (or_introl eq_refl)) as Hx.
    pose proof (eval_node V (NStmt l) e true σ σ' Hr Hx) as K. rewrite Ht in K. specialize (K (incl_refl _) HIN).
    cbn [exec exec_opt]. destruct (eval W L e σ) as [v t | z t], (eval W L' e σ') as [v' t' | z' t']; try tauto; destruct K as [<- K]; simpl; [|exists t'; auto].
    destruct (truth v); exists t'; (split; [reflexivity|]); (split; [apply K|]); intros y Hg P; apply K; auto. cbn. tauto.
Qed.
Lemma cond_moves V l c : visible G V c -> In (NStmt l, tr_expr true c) (info (f_body f)) -> In (NStmt l, c, true) (ex_stmts (f_body f)) ->
  reach E (NStmt l) -> cond_ok W L L' IN OUT XR none none V (NStmt l) c c.
Proof.
  intros _ HI Hx Hr σ σ' HIN. right. pose proof (tr_in _ _ HI) as Ht.
  pose proof (eval_node V (NStmt l) c true σ σ' Hr Hx) as K. rewrite Ht in K. specialize (K (incl_refl _) HIN).
  destruct (eval W L c σ) as [v t | z t], (eval W L' c σ') as [v' t' | z' t']; try tauto; destruct K as [<- K]; simpl; exists t'; auto.
  split; auto. split; [apply K|]. intros y Hg P. apply K; auto. destruct P as [P | P]; auto. left. split; auto. apply incl_top.
Qed.

Lemma meta_empty n : is_meta n = true -> transfer_of f n = t_empty.
Proof.
  intros H. apply transfer_of_out. intros Hi. apply in_map_iff in Hi as ((m & t) & <- & Hi). apply info_nodes in Hi. simpl in H. congruence.
Qed.
Lemma param_empty x : In x Vp -> transfer_of f (NDecl x) = t_empty.
Proof.
  intros Hx. apply transfer_of_out. destruct HW as (_ & _ & N). apply in_map_iff in Hx as (p & <- & Hp). intros Hi. clear -N Hi Hp.
  induction (f_params f) as [|q ps IH]; [destruct Hp|]. simpl in N. inversion N as [|? ? N1 N2]; subst.
  destruct Hp as [-> | Hp]; [|now apply IH]. apply N1. apply in_app_iff. auto.
Qed.
Lemma through V V' n s s' : transfer_of f n = t_empty -> IN V n s s' -> OUT V' n s s'.
Proof. intros Ht [H1 H2]. split; auto. intros v Hg P. apply H2; auto. rewrite Ht. cbn. tauto. Qed.

Theorem moves_run n args gl w : run W L' n f args gl w = run W L n f args gl w.
Proof.
  pose proof (id_trs W L L' E IN OUT XR none none G (info (f_body f)) (ex_stmts (f_body f)) prim_moves cond_moves) as T.
  destruct (proj2 T (f_body f) Vp (proj1 HW) HJ (incl_refl _) (incl_refl _)) as (V' & TR). clear T.
  assert (Q : fmatch W f IN XR none none (execs W L n (f_body f) (start W f args gl w)) (execs W L' n (f_body f) (start W f args gl w))).
  { eapply sim_run; [.. | exact TR | exact (Vp_disj W L f HW) |].
    - intros V p m s s' Hr He [H1 H2]. split; auto. intros v Hg P. apply H2; auto. pose proof (reach_kept f _ _ Hr He) as Hk.
      destruct P as [P | [[P1 P2] | P]]; auto; left; [eapply needed_read | eapply needed_later]; eauto.
    - intros V k s s'. now apply through, meta_empty.
    - intros V V1 k sc s s' H _ _ _ _. revert H. now apply through, meta_empty.
    - intros V V1 m s s' H _ _. exact H.
    - intros V x s s' Hx. now apply through, param_empty.
    - split; [split; reflexivity | auto]. }
  assert (EQ : forall s s', XR s s' -> outs W f s = outs W f s' /\ glb s = glb s' /\ wld s = wld s').
  { intros s s' [[H1 H2] H3]. split; [|auto]. unfold outs. apply map_ext_in. intros [x b] Hx. apply filter_In in Hx as [Hx Hb].
    simpl in *. subst b. assert (Hx' : In x Vp) by (apply in_map_iff; exists (x, true); auto).
    apply H3; [now apply HW | now apply (Vp_disj W L f HW)]. }
  assert (EI : forall V s s', IN V (fend f) s s' -> XR s s') by (intros V s s' [H1 H2]; split; auto).
  unfold run. destruct Q as [[(x & t & _ & []) | (y & t & _ & [])] | Q].
  destruct (execs W L n (f_body f) (start W f args gl w)) as [s|s|s|v s|x s|]; simpl in Q; try tauto.
  - destruct Q as (s' & V & -> & HV & HI). apply EI, EQ in HI as (H1 & H2 & H3). simpl. congruence.
  - destruct Q as (s' & V & -> & HV & HI). apply EI, EQ in HI as (H1 & H2 & H3). simpl. congruence.
  - destruct Q as (s' & -> & HI). apply EQ in HI as (H1 & H2 & H3). simpl. congruence.
  - now rewrite Q.
Qed.
End Moves.
