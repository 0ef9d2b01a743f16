(* Value propagation: the replacement of names, for a whole function. *)
From Coq Require Import List Arith Bool ZArith Lia.
From Verif Require Import OptModel OptModel2 OptSpec OptSpec2 OptProofs1 OptProofs2 OptProofs3 OptProofs4 OptProofs5 OptProofs6 OptProofs7 OptProofs8 OptProofs9 OptProofs10.
Import ListNotations.

(* Maps never propagate anything about globals. *)
Section Gok.
Variable G : var -> bool.
Definition gok (m : pmap) : Prop := forall x e, fact m x e -> G x = false /\ (forall y, about e y -> G y = false).
Lemma gok_meet outs : (forall o, In o outs -> gok o) -> gok (meet outs).
Proof. intros H x e F. apply meet_spec in F as [_ (o & Ho & F)]. exact (H o Ho x e F). Qed.
Lemma gok_sub m m' : gok m -> (forall x e, fact m' x e -> fact m x e) -> gok m'.
Proof. intros H S x e F. apply H. auto. Qed.
Lemma gok_resolve k : forall m e e', gok m -> (forall y, about e y -> G y = false) -> resolve_r k m e = Some e' ->
  forall y, about e' y -> G y = false.
Proof.
  induction k as [|k IH]; intros m e e' H He; destruct e as [|l c|l x]; simpl; try (intros X; injection X as <-; auto; fail).
  - destruct (look m x) as [r|]; [|intros X; injection X as <-; auto]. destruct (rv_prop r); [|intros X; injection X as <-; auto].
    destruct (rv_expr r); try discriminate. intros X; injection X as <-; auto.
  - destruct (look m x) as [r|] eqn:E; [|intros X; injection X as <-; auto]. destruct (rv_prop r) eqn:Ep; [|intros X; injection X as <-; auto].
    assert (F : forall q, rv_expr r = q -> fact m x q) by (intros q <-; exists r; auto).
    destruct (rv_expr r) as [|l' c|l' z]; [intros X; injection X as <-; auto| |].
    + intros X. eapply IH; [exact H | | exact X]. simpl. tauto.
    + intros X. eapply IH; [exact H | | exact X]. apply (H x (RName l' z)). auto.
Qed.
Definition v_ok (v : vnode) : Prop :=
  match v with VExpr _ => True | VAssign x e | VDecl x (Some e) => G x = false /\ ~ plain_global G e | VDecl _ None => False end.
Lemma gok_put k m x e r : gok m -> G x = false -> ~ plain_global G e -> resolve k m e = Some r -> gok (taints (mods e) (put m x (entry r))).
Proof.
  intros H Hx He HR y q F. apply fact_taints in F as (F & _ & _). apply fact_put in F as [(-> & F1 & F2) | [_ F]]; auto.
  simpl in F2. subst q. split; auto. eapply gok_resolve; [exact H | | exact HR].
  destruct e; simpl in *; try tauto. intros z ->. destruct (G z); auto. exfalso. auto.
Qed.
Lemma gok_transfer k v m m' : v_ok v -> gok m -> vtransfer k v m = Some m' -> gok m'.
Proof.
  intros Hv H. destruct v as [e|x e|x [e|]]; simpl in *.
  - intros E. injection E as <-. eapply gok_sub; [exact H|]. intros y q F. now apply fact_taints in F.
  - destruct (resolve k (inval x m) e) as [r|] eqn:HR; [|discriminate]. intros E. injection E as <-.
    eapply gok_put; try apply Hv; eauto. eapply gok_sub; [exact H|]. intros y q F. now apply fact_inval in F.
  - destruct (resolve k m e) as [r|] eqn:HR; [|discriminate]. intros E. injection E as <-.
    eapply gok_put; try apply Hv; eauto.
  - tauto.
Qed.
Lemma v_ok_all : (forall s V, scoped G V s -> each (vp_cond G) s -> forall n v, In (n, v) (vnodes_stmt s) -> v_ok v) /\
  (forall ss V, scoped_of G V ss -> each_of (vp_cond G) ss -> forall n v, In (n, v) (vnodes ss) -> v_ok v).
Proof.
  assert (I : forall V i n v, sc_init G V i -> vp_init G i -> In (n, v) (init_vnodes i) -> v_ok v).
  { intros V [[x e]|] n v Hs Hc; simpl; [|tauto]. intros [E | []]. injection E as <- <-. simpl in *. split; auto. apply Hs. }
  apply stmt_mutind.
  - intros l x e V Hs [Hc _] n v [E | []]. injection E as <- <-. exact Hc.
  - intros l e V Hs _ n v [E | []]. injection E as <- <-. exact Logic.I.
  - intros l x i V [[Hg _] _] [Hc _] n v [E | []]. injection E as <- <-. destruct i as [e|]; [split; auto | exact Hc].
  - intros i l c t IHt hasf f IHf V (Hi & Hc & Ht & Hf) (Pi & Pt & Pf) n v H. cbn [vnodes_stmt] in H.
    apply in_app_iff in H as [H | [H | H]]; [eapply I; eauto | injection H as <- <-; exact Logic.I|].
    apply in_app_iff in H as [H | H]; [eapply IHt | eapply IHf]; eauto.
  - intros i l c t IHt hasf f IHf V (Hi & Hc & Ht & Hf) (Pi & Pt & Pf) n v H. cbn [vnodes_stmt] in H.
    apply in_app_iff in H as [H | [H | H]]; [eapply I; eauto | injection H as <- <-; exact Logic.I|].
    apply in_app_iff in H as [H | H]; [eapply IHt | eapply IHf]; eauto.
  - intros b IHb c IHc V [Hb Hc] (_ & Pb & Pc) n v H. cbn [vnodes_stmt] in H. apply in_app_iff in H as [H | H]; [eapply IHb | eapply IHc]; eauto.
  - intros l [e|] V _ _ n v H; [|destruct H]. destruct H as [E | []]. injection E as <- <-. exact Logic.I.
  - intros l [e|] V _ _ n v [E | []]; injection E as <- <-; exact Logic.I.
  - intros l e V Hs _ n v [E | []]. injection E as <- <-. exact Logic.I.
  - intros V _ _ n v [].
  - intros V _ _ n v [].
  - intros b IHb V Hs [_ Pb] n v H. eapply IHb; eauto.
  - intros V _ _ n v [].
  - intros s IHs r IHr V [Hs Hr] [Ps Pr] n v H. cbn [vnodes] in H. apply in_app_iff in H as [H | H]; [eapply IHs | eapply IHr]; eauto.
Qed.
End Gok.

Lemma decls_keys : (forall s x, In x (decls_stmt s) -> In (NDecl x) (map fst (info_stmt s))) /\
  (forall ss x, In x (decls ss) -> In (NDecl x) (map fst (info ss))).
Proof.
  assert (I : forall i x, In x (match i with Some (x, _) => [x] | None => [] end) -> In (NDecl x) (map fst (init_info i))).
  { intros [[y e]|] x; simpl; [|tauto]. intros [-> | []]. auto. }
  apply stmt_mutind; try (intros; match goal with H : In _ _ |- _ => destruct H; fail end).
  - intros l x i y [-> | []]. simpl. auto.
  - intros i l c t IHt hasf f IHf x H. cbn [decls_stmt info_stmt] in *. rewrite map_app. cbn [map fst]. rewrite map_app.
    rewrite in_app_iff in *. simpl. rewrite in_app_iff in *. destruct H as [H | [H | H]]; auto.
  - intros i l c t IHt hasf f IHf x H. cbn [decls_stmt info_stmt] in *. rewrite map_app. cbn [map fst]. rewrite map_app.
    rewrite in_app_iff in *. simpl. rewrite in_app_iff in *. destruct H as [H | [H | H]]; auto.
  - intros b IHb c IHc x H. cbn [decls_stmt info_stmt] in *. rewrite map_app, in_app_iff in *. destruct H; auto.
  - intros b IHb x H. exact (IHb x H).
  - intros s IHs ss IHss x H. cbn [decls info] in *. rewrite map_app, in_app_iff in *. destruct H; auto.
Qed.
Lemma NoDup_app_e {A} (a b : list A) : NoDup (a ++ b) -> NoDup a /\ NoDup b /\ (forall x, In x a -> ~ In x b).
Proof.
  induction a as [|x a IH]; simpl; intros H; [split; [constructor | auto]|]. inversion H as [|? ? H1 H2]; subst.
  destruct (IH H2) as (A1 & A2 & A3). split; [constructor; auto; intros X; apply H1, in_app_iff; auto|]. split; auto.
  intros y [<- | Hy]; auto. intros X. apply H1, in_app_iff. auto.
Qed.
Lemma decls_nodup : (forall s, NoDup (map fst (info_stmt s)) -> NoDup (decls_stmt s)) /\
  (forall ss, NoDup (map fst (info ss)) -> NoDup (decls ss)).
Proof.
  assert (I : forall i : option (var * expr), NoDup (match i with Some (x, _) => [x] | None => [] end)).
  { intros [[y e]|]; [constructor; [simpl; auto|]|]; constructor. }
  assert (J : forall i x, In x (match i with Some (x, _) => [x] | None => [] end) -> In (NDecl x) (map fst (init_info i))).
  { intros [[y e]|] x; simpl; [|tauto]. intros [-> | []]. auto. }
  apply stmt_mutind; try (intros; constructor; fail).
  - intros l x i _. constructor; [simpl; auto | constructor].
  - intros i l c t IHt hasf f IHf H. cbn [info_stmt] in H. rewrite map_app in H. simpl in H. rewrite map_app in H.
    apply NoDup_app_e in H as (A1 & A2 & A3). inversion A2 as [|? ? B1 B2]; subst. apply NoDup_app_e in B2 as (C1 & C2 & C3).
    cbn [decls_stmt]. apply NoDup_app_i; auto; [apply NoDup_app_i; auto|].
    + intros x Hx Hx'. apply decls_keys in Hx. apply decls_keys in Hx'. eapply C3; eauto.
    + intros x Hx Hx'. apply J in Hx. apply (A3 _ Hx). simpl. right. apply in_app_iff.
      apply in_app_iff in Hx' as [Hx' | Hx']; apply decls_keys in Hx'; auto.
  - intros i l c t IHt hasf f IHf H. cbn [info_stmt] in H. rewrite map_app in H. simpl in H. rewrite map_app in H.
    apply NoDup_app_e in H as (A1 & A2 & A3). inversion A2 as [|? ? B1 B2]; subst. apply NoDup_app_e in B2 as (C1 & C2 & C3).
    cbn [decls_stmt]. apply NoDup_app_i; auto; [apply NoDup_app_i; auto|].
    + intros x Hx Hx'. apply decls_keys in Hx. apply decls_keys in Hx'. eapply C3; eauto.
    + intros x Hx Hx'. apply J in Hx. apply (A3 _ Hx). simpl. right. apply in_app_iff.
      apply in_app_iff in Hx' as [Hx' | Hx']; apply decls_keys in Hx'; auto.
  - intros b IHb c IHc H. cbn [info_stmt] in H. rewrite map_app in H. apply NoDup_app_e in H as (A1 & A2 & A3).
    cbn [decls_stmt]. apply NoDup_app_i; auto. intros x Hx Hx'. apply decls_keys in Hx. apply decls_keys in Hx'. eapply A3; eauto.
  - intros b IHb H. exact (IHb H).
  - intros s IHs r IHr H. cbn [info] in H. rewrite map_app in H. apply NoDup_app_e in H as (A1 & A2 & A3).
    cbn [decls]. apply NoDup_app_i; auto. intros x Hx Hx'. apply decls_keys in Hx. apply decls_keys in Hx'. eapply A3; eauto.
Qed.

(* What a node kills of what arrives is in its kill set. *)
Lemma flow_node_kill g gen n d d' ch : flow_node g gen n d = (d', ch) ->
  forall q, In q (d_in d' n) -> kills_p gen n (fst q) -> In q (d_kill d' n).
Proof.
  intros E q. unfold flow_node in E. cbv zeta in E.
  set (in_ := if negb (eq_facts (d_in d n) (flat_map (d_out d) (upstream g n))) then flat_map (d_out d) (upstream g n) else d_in d n) in *.
  injection E as <- _. simpl. unfold upd. rewrite gnode_eqb_refl. intros H K. apply in_app_iff.
  destruct (memf q (d_kill d n)) eqn:M; [right; now apply memf_in | left].
  apply filter_In. split; [|now rewrite M]. apply filter_In. split; auto. now apply kills_ok.
Qed.
Lemma flow_sweep_kill g gen ns : forall d d', inv g gen d -> flow_sweep g gen ns d = (d', false) ->
  forall n q, In n ns -> In q (d_in d' n) -> kills_p gen n (fst q) -> In q (d_kill d' n).
Proof.
  induction ns as [|m ns IH]; intros d d' I E n q Hn Hq K; [destruct Hn|]. rewrite flow_sweep_cons in E.
  destruct (flow_node g gen m d) as [d1 c1] eqn:E1. destruct (flow_sweep g gen ns d1) as [d2 c2] eqn:E2.
  injection E as <- E. apply orb_false_iff in E as [-> ->].
  destruct (flow_node_inv _ _ _ _ _ _ I E1) as [I1 _]. destruct Hn as [<- | Hn]; [|eapply IH; eauto].
  destruct (flow_sweep_inv _ _ _ _ _ _ I1 E2) as [_ L2]. destruct (flow_sweep_same _ _ _ _ _ I1 E2) as [S2 _].
  destruct (S2 m) as [S2i _]. apply L2. eapply flow_node_kill; eauto. now rewrite <- S2i.
Qed.
Lemma flow_solve_kill g gen order : forall fuel d d', inv g gen d -> flow_solve fuel g gen order d = Some d' ->
  forall n q, In n order -> In q (d_in d' n) -> kills_p gen n (fst q) -> In q (d_kill d' n).
Proof.
  induction fuel as [|k IH]; simpl; intros d d' I E; [discriminate|].
  destruct (flow_sweep g gen order d) as [d1 [|]] eqn:E1.
  - destruct (flow_sweep_inv _ _ _ _ _ _ I E1) as [I1 _]. exact (IH _ _ I1 E).
  - injection E as <-. eapply flow_sweep_kill; eauto.
Qed.
Lemma fr_kill f d : flow_result f d -> forall n q, In q (d_in d n) -> kills_p (gen_of f) n (fst q) -> In q (d_kill d n).
Proof.
  intros HF n q H K. pose proof (fr_in_node f d HF _ _ H) as Hn. destruct HF as (fuel & order & HO & HS).
  eapply flow_solve_kill; [apply inv0 | exact HS | now apply HO | auto | auto].
Qed.

Section Vp.
Variable W : Type.
Variable L : lang W.
Notation state := (state W).
Variable HM : forall l, moved W L l = false.
Variable f : func.
Variable d : dflow.
Variable HF : flow_result f d.
Let G := glob W L.
Variable HW : well_formed G f.
Variable HJ : each_of no_jump (f_body f).
Variable HC : each_of (vp_cond G) (f_body f).
Variables k fuel : nat.
Variable r : vres.
Let g := build f.
Let E := c_edges (build_raw f).
Let Vp := map fst (f_params f).
Variable HS : vsolve f d k fuel (rpo g) = Some r.

Lemma nodup_v : NoDup (map fst (vnodes (f_body f))).
Proof. rewrite (proj2 vnodes_keys). exact (nodup_info W L f HW). Qed.
Lemma vstep_node n v m : is_meta n = false -> In (n, v) (vnodes (f_body f)) -> vstep f d k n m = vtransfer k v m.
Proof.
  intros Hm H. unfold vstep. rewrite (find_key _ _ _ nodup_v H). destruct n; auto; discriminate.
Qed.
Lemma vstep_other n m : ~ In n (map fst (info (f_body f))) -> (forall q sc, n <> NEnd q sc) -> vstep f d k n m = Some m.
Proof.
  intros H He. unfold vstep. rewrite <- (proj2 vnodes_keys) in H. rewrite (find_no _ _ H). destruct n; auto. destruct (He k0 scope); auto.
Qed.
Lemma solved_all :
  (forall n, reach E n -> n <> NStart -> settled f d k r n) /\
  (forall n, v_in r n <> None -> settled f d k r n) /\
  (forall n, v_in r n = None -> v_out r n = v_out (v0 f) n) /\ v_in r NStart = None /\
  (forall n, gok G (v_out r n)).
Proof.
  apply (vsolve_ok f d k (gok G) fuel r); auto.
  - apply gok_meet.
  - intros n m m' H Hst. destruct n as [|q|q sc|x|l].
    4,5: unfold vstep in Hst; destruct (find _ _) as [[n0 v]|] eqn:F;
      [apply find_some in F as [F _]; eapply gok_transfer; eauto; eapply (proj2 (v_ok_all G) (f_body f)); eauto; apply HW
      | injection Hst as <-; auto].
    + rewrite vstep_other in Hst; [injection Hst as <-; auto | | discriminate]. apply owns_not_start.
    + rewrite vstep_other in Hst; [injection Hst as <-; auto | | discriminate]. intros X. apply in_map_iff in X as ((n0 & t) & X & Y).
      apply info_nodes in Y. simpl in X. subst n0. discriminate.
    + simpl in Hst. injection Hst as <-. eapply gok_sub; [exact H|]. intros y e Fc. now apply fact_kill_all in Fc.
  - intros x e (r0 & F & _). discriminate.
  - intros x e (r0 & F & Fp & _). exfalso. cbn [v0 v_out gnode_eqb] in F. induction (f_params f) as [|p ps IH]; [discriminate|].
    simpl in F. destruct (x =? fst p); [injection F as <-; discriminate | auto].
Qed.
Lemma reach_settled n : reach E n -> n <> NStart -> settled f d k r n.
Proof. apply solved_all. Qed.

Definition live (h : gnode -> facts) (V : list var) (n : gnode) : Prop := forall y, In y V -> In y Vp \/ exists p, In (y, p) (h n).
Definition VIN (V : list var) (n : gnode) (s s' : state) : Prop :=
  reach E n /\ s = s' /\ nong W L V /\ (exists m, v_in r n = Some m /\ hold W V m s) /\ live (d_in d) V n.
Definition VOUT (V : list var) (n : gnode) (s s' : state) : Prop :=
  reach E n /\ s = s' /\ nong W L V /\ hold W V (v_out r n) s /\ live (d_out d) V n.
Notation none := (fun _ : exc => False).
Notation prim_ok := (prim_ok W L L VIN VOUT eq none none).
Notation cond_ok := (cond_ok W L L VIN VOUT eq none none).
Notation tr := (tr W L L E VIN VOUT eq none none eq).
Notation trs := (trs W L L E VIN VOUT eq none none eq).

Lemma V_edge V p n s s' : reach E p -> In (p, n) E -> VOUT V p s s' -> VIN V n s s'.
Proof.
  intros Hr He (_ & H1 & H2 & H3 & H4). assert (Hrn : reach E n) by (eapply reach_edge; eauto).
  pose proof (reach_kept f _ _ Hr He) as Hg.
  assert (Hn : n <> NStart) by (intros ->; now apply no_edge_to_start in He).
  destruct (reach_settled n Hrn Hn) as (S1 & _). split; [auto|]. split; [auto|]. split; [auto|]. split.
  - eexists. split; [exact S1|]. intros x Hx. destruct (H3 x Hx) as (A1 & A2 & A3).
    assert (Ho : In (v_out r p) (map (v_out r) (upstream (build f) n))) by (apply in_map, upstream_in; auto).
    destruct (meet_spec (map (v_out r) (upstream (build f) n)) x) as [M1 M2].
    split; [eapply M1; eauto|]. split.
    + intros l c F. apply M2 in F as [F _]. eapply A2. eapply F; eauto.
    + intros l y F. apply M2 in F as [F _]. eapply A3. eapply F; eauto.
  - intros y Hy. destruct (H4 y Hy) as [X | (q & Hq)]; auto. right. exists q. eapply (fr_edge f d HF); eauto.
Qed.
Lemma live_out V n : reach E n -> (forall q sc, n <> NEnd q sc) -> live (d_in d) V n -> live (d_out d) V n.
Proof.
  intros Hr Hn H y Hy. destruct (H y Hy) as [X | (q & Hq)]; auto. right.
  destruct (mem y (gen_of f n)) eqn:M.
  - apply mem_in in M. exists n. apply (fr_gen f d HF); auto. now apply reach_node.
  - exists q. apply (fr_out f d HF); auto. simpl. intros [X | (k0 & sc & X & _)]; [apply mem_in in X; congruence | now apply Hn in X].
Qed.
Lemma V_other V n s s' : ~ In n (map fst (info (f_body f))) -> n <> NStart -> (forall q sc, n <> NEnd q sc) -> VIN V n s s' -> VOUT V n s s'.
Proof.
  intros Hi Hs Hn (H1 & H2 & H3 & (m & H4 & H5) & H6). split; [auto|]. split; [auto|]. split; [auto|]. split; [|now apply live_out].
  destruct (reach_settled n H1 Hs) as (S1 & o & S2 & S3). rewrite S1 in H4. injection H4 as H4.
  rewrite H4 in S2. rewrite vstep_other in S2; auto. injection S2 as <-. eapply hold_same; eauto.
Qed.
Lemma V_flow V q s s' : VIN V (NFlow q) s s' -> VOUT V (NFlow q) s s'.
Proof.
  apply V_other; try discriminate. intros X. apply in_map_iff in X as ((n0 & t) & X & Y).
  apply info_nodes in Y. simpl in X. subst n0. discriminate.
Qed.
Lemma V_end V V' q sc s s' : VIN V (NEnd q sc) s s' -> incl V' V -> (forall x, In x V' -> ~ In x sc) ->
  (forall x, In x V -> In x V' \/ In x sc) -> incl Vp V' -> VOUT V' (NEnd q sc) s s'.
Proof.
  intros (H1 & H2 & H3 & (m & H4 & H5) & H6) Hi Hd Ha Hp.
  assert (Gn : gen_of f (NEnd q sc) = []) by (apply gen_meta; reflexivity).
  assert (Hk : forall x, In x (map fst (d_kill d (NEnd q sc))) -> In x sc).
  { intros x Hx. apply in_map_iff in Hx as ((x', p) & <- & Hx). pose proof (proj1 (fr_inv f d HF)) as I.
    pose proof (i_kill _ _ _ I _ _ Hx) as K. destruct K as [K | (k0 & sc0 & K & K')].
    - rewrite Gn in K. destruct K.
    - injection K as <- <-. exact K'. }
  split; [auto|]. split; [auto|]. split; [intros x Hx; apply H3; auto|]. split.
  - destruct (reach_settled _ H1 ltac:(discriminate)) as (S1 & o & S2 & S3). rewrite S1 in H4. injection H4 as H4.
    rewrite H4 in S2. cbn [vstep] in S2. injection S2 as <-. eapply hold_same; [exact S3|].
    intros x Hx. destruct (H5 x (Hi _ Hx)) as (A1 & A2 & A3).
    assert (Hnk : ~ In x (map fst (d_kill d (NEnd q sc)))) by (intros X; apply Hk in X; eapply Hd; eauto).
    split; [now apply has_kill_all|]. split.
    + intros l c F. apply fact_kill_all in F as (F & _ & _). eauto.
    + intros l y F. apply fact_kill_all in F as (F & _ & F2). destruct (A3 _ _ F) as [Hy Hl]. split; auto.
      destruct (Ha y Hy) as [|Hysc]; auto.
      destruct (H6 y Hy) as [X | (p & X)]; [now apply Hp|]. exfalso. apply (F2 y); [|reflexivity].
      apply in_map_iff. exists (y, p). split; auto. apply (fr_kill f d HF); auto. right. exists q, sc. auto.
  - intros y Hy. destruct (H6 y (Hi _ Hy)) as [X | (p & X)]; auto. right. exists p. apply (fr_out f d HF); auto. simpl.
    intros [Y | (k0 & sc0 & Y & Y')]; [rewrite Gn in Y; destruct Y|]. injection Y as <- <-. eapply Hd; eauto.
Qed.
Lemma V_param V x s s' : In x Vp -> VIN V (NDecl x) s s' -> VOUT V (NDecl x) s s'.
Proof.
  intros Hx. apply V_other; try discriminate. intros Hi. destruct HW as (_ & _ & N). apply NoDup_app_e in N as (_ & _ & N).
  apply (N (NDecl x)); auto. unfold Vp in Hx. apply in_map_iff in Hx as (p & <- & Hp). apply in_map_iff. exists p. auto.
Qed.
Lemma V_weak V V' n s s' : VIN V n s s' -> incl V' V -> V = V' -> VIN V' n s s'.
Proof. intros H _ <-. exact H. Qed.
Lemma V_start s : VOUT Vp NStart s s.
Proof.
  split; [constructor|]. split; [auto|]. split; [intros x Hx; now apply HW|].
  destruct solved_all as (_ & _ & S3 & S4 & _). split.
  - rewrite (S3 _ S4). cbn [v0 v_out gnode_eqb].
    assert (X : forall x, In x Vp -> look (map (fun p => (fst p, rv_no)) (f_params f)) x = Some rv_no).
    { unfold Vp. induction (f_params f) as [|p ps IH]; simpl; [tauto|]. intros x Hx. destruct (Nat.eqb_spec x (fst p)) as [|Hne]; auto.
      destruct Hx as [Hx | Hx]; [congruence | auto]. }
    intros x Hx. unfold has, fact. rewrite (X x Hx). split; [discriminate|].
    split; intros l c (r0 & F & Fp & _); injection F as <-; discriminate.
  - intros y Hy. auto.
Qed.

(* The facts at the node of a statement. *)
Lemma V_at V n v s s' : VIN V n s s' -> is_meta n = false -> In (n, v) (vnodes (f_body f)) ->
  s = s' /\ nong W L V /\ live (d_in d) V n /\ reach E n /\
  exists m o, v_in r n = Some m /\ hold W V m s /\ vtransfer k v m = Some o /\ same_map (v_out r n) o.
Proof.
  intros (H1 & H2 & H3 & (m & H4 & H5) & H6) Hm Hi. split; [auto|]. split; [auto|]. split; [auto|]. split; [auto|].
  destruct (reach_settled n H1) as (S1 & o & S2 & S3); [intros ->; discriminate|].
  rewrite S1 in H4. injection H4 as H4. rewrite H4 in S1, S2. exists m, o. rewrite (vstep_node n v m Hm Hi) in S2. auto.
Qed.
Definition vmods (v : vnode) : list var :=
  match v with VExpr e | VAssign _ e | VDecl _ (Some e) => mods e | VDecl _ None => [] end.
Lemma vtransfer_taints v m o : v_ok G v -> vtransfer k v m = Some o -> exists m0, o = taints (vmods v) m0.
Proof.
  intros Hv. destruct v as [e|x e|x [e|]]; simpl.
  - intros X. injection X as <-. eauto.
  - destruct (resolve k (inval x m) e); [|discriminate]. intros X. injection X as <-. eauto.
  - destruct (resolve k m e); [|discriminate]. intros X. injection X as <-. eauto.
  - destruct Hv.
Qed.
Lemma v_ok_at n v : In (n, v) (vnodes (f_body f)) -> v_ok G v.
Proof. intros H. eapply (proj2 (v_ok_all G) (f_body f)); eauto. apply HW. Qed.
Lemma repl_same V n v e s s' : VIN V n s s' -> is_meta n = false -> In (n, v) (vnodes (f_body f)) -> vmods v = mods e -> visible G V e ->
  eval W L (repl r n e) s = eval W L e s.
Proof.
  intros HI Hm Hv Hme Hvis. destruct (V_at V n v s s' HI Hm Hv) as (_ & HN & _ & _ & m & o & E1 & HH & E2 & E3).
  destruct (vtransfer_taints v m o (v_ok_at _ _ Hv) E2) as (m0 & ->). rewrite Hme in E3.
  assert (K : forall l x, G x = true \/ In x V -> forall t, off W L (mods e) s t -> eval W L (repl_name r n l x) t = RVal (get W L t x) t).
  { intros l x Hx t Ht.
    assert (Eq : eval W L (EName l x) t = RVal (get W L t x) t) by (rewrite eval_name, HM; reflexivity).
    unfold repl_name. rewrite E1. destruct (look m x) as [a|] eqn:Ea; [|exact Eq].
    destruct (look (v_out r n) x) as [b|] eqn:Eb; [|exact Eq].
    destruct (rval_eqb a b && rv_prop a) eqn:Ec; [|exact Eq].
    apply andb_true_iff in Ec as [Ec Ed]. destruct (rval_eqb_l _ _ Ec Ed) as [Ee Ef].
    assert (Fi : fact m x (rv_expr a)) by (exists a; auto).
    assert (Fo : fact (v_out r n) x (rv_expr a)) by (exists b; auto).
    assert (GX : G x = false) by (destruct solved_all as (_ & _ & _ & _ & S5); exact (proj1 (S5 n x _ Fo))).
    destruct Hx as [Hx | Hx]; [congruence|].
    apply (proj2 E3) in Fo. apply fact_taints in Fo as (_ & Fo1 & Fo2).
    destruct (HH x Hx) as (_ & A2 & A3).
    destruct (rv_expr a) as [|l' c|l' y]; [exact Eq | |].
    - rewrite eval_const. unfold get. fold G. rewrite GX. rewrite (Ht x GX Fo1). now rewrite (A2 _ _ Fi).
    - destruct (A3 _ _ Fi) as [Hy Hl]. rewrite eval_name, HM. unfold get. fold G. rewrite GX. rewrite (HN _ Hy : G y = false).
      rewrite (Ht x GX Fo1). rewrite (Ht y (HN _ Hy)); [now rewrite Hl|]. intros X. apply (Fo2 y X). reflexivity. }
  apply (proj1 (repl_eval_mut W L HM r n (mods e) s (fun x => G x = true \/ In x V) K)); [apply incl_refl | exact Hvis | apply off_refl].
Qed.

(* What holds behind the node. *)
Lemma out_expr V n e s s' w t : VIN V n s s' -> is_meta n = false -> In (n, VExpr e) (vnodes (f_body f)) ->
  eval W L e s = RVal w t -> VOUT V n t t.
Proof.
  intros HI Hm Hv He. destruct (V_at V n _ s s' HI Hm Hv) as (_ & HN & HL & Hr & m & o & E1 & HH & E2 & E3).
  split; [auto|]. split; [auto|]. split; [auto|]. split.
  - eapply hold_same; [exact E3|]. simpl in E2. injection E2 as <-. eapply hold_off; eauto. eapply eval_off; eauto.
  - apply live_out; auto. intros q sc ->. discriminate.
Qed.
Lemma out_assign V n x e s s' w t : VIN V n s s' -> is_meta n = false -> In (n, VAssign x e) (vnodes (f_body f)) ->
  In x V -> visible G V e -> eval W L e s = RVal w t -> VOUT V n (set W L t x w) (set W L t x w).
Proof.
  intros HI Hm Hv Hx Hvis He. destruct (V_at V n _ s s' HI Hm Hv) as (_ & HN & HL & Hr & m & o & E1 & HH & E2 & E3).
  pose proof (v_ok_at _ _ Hv) as [HG Hpg].
  split; [auto|]. split; [auto|]. split; [auto|]. split.
  - eapply hold_same; [exact E3|]. simpl in E2. destruct (resolve k (inval x m) e) as [r0|] eqn:ER; [|discriminate]. injection E2 as <-.
    apply (hold_assign W L HM V V (inval x m) x e r0 s t w k); auto; try apply incl_refl; try (intros y Hy; simpl; auto; fail).
    + now apply hold_inval.
    + intros z e0 _ F. now apply fact_inval in F.
  - apply live_out; auto. intros q sc ->. discriminate.
Qed.
Lemma out_decl V x e s s' w t : VIN V (NDecl x) s s' -> In (NDecl x, VDecl x (Some e)) (vnodes (f_body f)) ->
  In (NDecl x, tr_decl x (Some e)) (info (f_body f)) ->
  ~ In x V -> visible G V e -> eval W L e s = RVal w t -> VOUT (x :: V) (NDecl x) (set W L t x w) (set W L t x w).
Proof.
  intros HI Hv Hinf Hx Hvis He. destruct (V_at V (NDecl x) _ s s' HI eq_refl Hv) as (_ & HN & HL & Hr & m & o & E1 & HH & E2 & E3).
  pose proof (v_ok_at _ _ Hv) as [HG Hpg].
  split; [auto|]. split; [auto|]. split; [intros y [<- | Hy]; auto|]. split.
  - eapply hold_same; [exact E3|]. simpl in E2. destruct (resolve k m e) as [r0|] eqn:ER; [|discriminate]. injection E2 as <-.
    apply (hold_assign W L HM V (x :: V) m x e r0 s t w k); auto; try apply incl_refl; try (intros y Hy; simpl; auto; fail).
    intros z e0 Hz F Ha. destruct e0 as [|l c|l y]; simpl in Ha; try tauto. subst y.
    destruct (HH z Hz) as (_ & _ & A3). destruct (A3 _ _ F). contradiction.
    simpl. auto.
  - intros y [<- | Hy].
    + right. exists (NDecl x). apply (fr_gen f d HF); [now apply reach_node|].
      unfold gen_of. rewrite (tr_in W L f HW _ _ Hinf). simpl. auto.
    + apply (live_out V); auto. discriminate.
Qed.

Lemma visible_incl V U e : visible G V e -> incl V U -> visible G U e.
Proof. intros H HI x Hx. destruct (H x Hx); auto. Qed.
Lemma cond_repl V l c : visible G V c -> In (NStmt l, VExpr c) (vnodes (f_body f)) -> cond_ok V (NStmt l) c (repl r (NStmt l) c).
Proof.
  intros Hv Hi s s' HI. pose proof HI as (_ & <- & _). right.
  rewrite (repl_same V (NStmt l) _ c s s HI eq_refl Hi eq_refl Hv).
  destruct (eval W L c s) as [w t | x t] eqn:Ee; [|eauto]. exists t. split; auto. eapply out_expr; eauto.
Qed.
Lemma decl_repl V l x e : visible G V e -> ~ In x V -> In (NDecl x, VDecl x (Some e)) (vnodes (f_body f)) ->
  In (NDecl x, tr_decl x (Some e)) (info (f_body f)) ->
  prim_ok V (NDecl x) (SDecl l x (Some e)) (Some (SDecl l x (Some (repl r (NDecl x) e)))) (x :: V).
Proof.
  intros Hv Hx Hi Hinf m s s' HI. pose proof HI as (_ & <- & _). right. cbn [exec_opt exec].
  rewrite (repl_same V (NDecl x) _ e s s HI eq_refl Hi eq_refl Hv).
  destruct (eval W L e s) as [w t | y t] eqn:Ee; cbn [obind]; [|eauto]. eexists. split; [reflexivity|]. eapply out_decl; eauto.
Qed.
Lemma prim_repl V s n : node_of s = Some n -> scoped G V s -> vp_cond G s -> disj V (decls_stmt s) ->
  incl (vnodes_stmt s) (vnodes (f_body f)) -> incl (info_stmt s) (info (f_body f)) ->
  prim_ok V n s (Some (repl_stmt r s)) (declared V s).
Proof.
  intros Hn Hs Hc Hd Hv Hi. destruct s; simpl in Hn; try discriminate.
  - injection Hn as <-. simpl in Hs, Hc. destruct Hs as [Hx Hvis]. destruct Hc as [HG Hp]. intros m s s' HI. pose proof HI as (_ & <- & _).
    assert (HxV : In x V) by (destruct Hx; auto; congruence).
    assert (Hvn : In (NStmt l, VAssign x e) (vnodes (f_body f))) by (apply Hv; simpl; auto).
    right. cbn [exec_opt exec repl_stmt]. rewrite (repl_same V (NStmt l) _ e s s HI eq_refl Hvn eq_refl Hvis).
    destruct (eval W L e s) as [w t | y t] eqn:Ee; cbn [obind]; [|eauto]. eexists. split; [reflexivity|]. eapply out_assign; eauto.
  - injection Hn as <-. intros m s s' HI. pose proof HI as (_ & <- & _).
    assert (Hvn : In (NStmt l, VExpr e) (vnodes (f_body f))) by (apply Hv; simpl; auto).
    right. cbn [exec_opt exec repl_stmt]. rewrite (repl_same V (NStmt l) _ e s s HI eq_refl Hvn eq_refl Hs).
    destruct (eval W L e s) as [w t | y t] eqn:Ee; cbn [obind]; [|eauto]. eexists. split; [reflexivity|]. eapply out_expr; eauto.
  - injection Hn as <-. destruct i as [e|]; [|destruct Hc]. apply decl_repl.
    + apply Hs.
    + apply Hs.
    + apply Hv. simpl. auto.
    + apply Hi. simpl. auto.
  - destruct e as [e|]; [|discriminate]. injection Hn as <-. intros m s s' HI. pose proof HI as (_ & <- & _).
    assert (Hvn : In (NStmt l, VExpr e) (vnodes (f_body f))) by (apply Hv; simpl; auto).
    right. cbn [exec_opt exec repl_stmt]. rewrite (repl_same V (NStmt l) _ e s s HI eq_refl Hvn eq_refl Hs).
    destruct (eval W L e s) as [w t | y t] eqn:Ee; cbn [obind]; eauto.
  - injection Hn as <-. intros m s s' HI. pose proof HI as (_ & <- & _). right. destruct e as [e|].
    + assert (Hvn : In (NStmt l, VExpr e) (vnodes (f_body f))) by (apply Hv; simpl; auto).
      cbn [exec_opt exec repl_stmt]. rewrite (repl_same V (NStmt l) _ e s s HI eq_refl Hvn eq_refl Hs).
      destruct (eval W L e s) as [w t | y t] eqn:Ee; cbn [obind]; [|eauto]. eexists. split; [reflexivity|]. eapply out_expr; eauto.
    + assert (Hvn : In (NStmt l, VExpr (EConst 0 0%Z)) (vnodes (f_body f))) by (apply Hv; simpl; auto).
      cbn [exec_opt exec repl_stmt]. eexists. split; [reflexivity|]. eapply (out_expr V _ _ s s 0%Z s); eauto.
  - injection Hn as <-. intros m s s' HI. pose proof HI as (_ & <- & _).
    assert (Hvn : In (NStmt l, VExpr e) (vnodes (f_body f))) by (apply Hv; simpl; auto).
    right. cbn [exec_opt exec repl_stmt]. rewrite (repl_same V (NStmt l) _ e s s HI eq_refl Hvn eq_refl Hs).
    destruct (eval W L e s) as [w t | y t] eqn:Ee; cbn [obind]; [|eauto]. destruct (truth w); [|eauto].
    eexists. split; [reflexivity|]. eapply out_expr; eauto.
Qed.
Lemma scoped_up V U s n : node_of s = Some n -> scoped G V s -> incl V U -> disj U (decls_stmt s) -> scoped G U s.
Proof.
  intros Hn Hs HI HD. destruct s; simpl in Hn; try discriminate; simpl in *.
  - destruct Hs as [[H | H] H2]; split; auto; eapply visible_incl; eauto.
  - eapply visible_incl; eauto.
  - destruct Hs as [[H1 H2] H3]. split; [split; auto; intros X; apply (HD x X); simpl; auto|].
    destruct i; simpl in *; auto. eapply visible_incl; eauto.
  - destruct e; simpl in *; auto. eapply visible_incl; eauto.
  - destruct e; simpl in *; auto. eapply visible_incl; eauto.
  - eapply visible_incl; eauto.
Qed.
Definition T_s (s : stmt) : Prop := forall U V, scoped G V s -> each (vp_cond G) s -> each no_jump s -> incl V U ->
  disj U (decls_stmt s) -> NoDup (decls_stmt s) -> incl (vnodes_stmt s) (vnodes (f_body f)) -> incl (info_stmt s) (info (f_body f)) ->
  exists U', tr U s (Some (repl_stmt r s)) U' /\ incl (declared V s) U'.
Definition T_ss (ss : stmts) : Prop := forall U V, scoped_of G V ss -> each_of (vp_cond G) ss -> each_of no_jump ss -> incl V U ->
  disj U (decls ss) -> NoDup (decls ss) -> incl (vnodes ss) (vnodes (f_body f)) -> incl (info ss) (info (f_body f)) ->
  exists U', trs U ss (repl_stmts r ss) U'.
Lemma T_prim s n : node_of s = Some n -> T_s s.
Proof.
  intros Hn U V Hs Hc Hj HI HD HN Hv Hi. exists (declared U s). split.
  - eapply tr_prim; eauto.
    + destruct s; simpl; try apply incl_refl. apply incl_tl, incl_refl.
    + destruct s; simpl in *; try discriminate; try apply incl_refl.
    + intros _. apply prim_repl; auto; [eapply scoped_up; eauto | destruct s; apply Hc].
  - destruct s; simpl; auto. intros y [<- | Hy]; simpl; auto.
Qed.
Lemma disj_app_l U a b : disj U (a ++ b) -> disj U a /\ disj U b.
Proof. intros H. split; intros x Hx Hy; apply (H x Hx), in_app_iff; auto. Qed.
Lemma incl_app_e {A} (a b c : list A) : incl (a ++ b) c -> incl a c /\ incl b c.
Proof. intros H. split; intros x Hx; apply H, in_app_iff; auto. Qed.
Lemma T_init U V i : sc_init G V i -> incl V U -> disj U (match i with Some (x, _) => [x] | None => [] end) ->
  incl (init_vnodes i) (vnodes (f_body f)) -> incl (init_info i) (info (f_body f)) ->
  init_ok W L L E VIN VOUT eq none none U i (repl_init r i) (with_init U i) /\ incl (with_init V i) (with_init U i) /\ incl U (with_init U i) /\
  (forall x, In x (with_init U i) -> In x U \/ In x (match i with Some (x, _) => [x] | None => [] end)).
Proof.
  intros Hs HI HD Hv Hi. destruct i as [[x e]|]; simpl in *; [|auto using incl_refl].
  split; [|split; [|split]].
  - split; [apply incl_tl, incl_refl|]. split; [apply incl_refl|]. intros _. apply decl_repl.
    + eapply visible_incl; [apply Hs | auto].
    + intros X. apply (HD x X). simpl. auto.
    + apply Hv. simpl. auto.
    + apply Hi. simpl. auto.
  - intros y [<- | Hy]; simpl; auto.
  - apply incl_tl, incl_refl.
  - intros y [<- | Hy]; simpl; auto.
Qed.
Lemma vp_trs : (forall s, T_s s) /\ (forall ss, T_ss ss).
Proof.
  apply stmt_mutind; try (intros; eapply T_prim; reflexivity).
  - intros i l c t IHt hasf fb IHf U V (Hsi & Hsc & Hst & Hsf) (_ & Pt & Pf) (_ & Jt & Jf) HI HD HN Hv Hi.
    cbn [decls_stmt] in HD, HN. apply disj_app_l in HD as [HDi HD]. apply disj_app_l in HD as [HDt HDf].
    apply NoDup_app_e in HN as (N1 & N2 & N3). apply NoDup_app_e in N2 as (N2 & N4 & N5).
    cbn [vnodes_stmt] in Hv. apply incl_app_e in Hv as [Hvi Hv]. apply incl_cons_inv in Hv as [Hvc Hv]. apply incl_app_e in Hv as [Hvt Hvf].
    cbn [info_stmt] in Hi. apply incl_app_e in Hi as [Hii Hi]. apply incl_cons_inv in Hi as [Hic Hi]. apply incl_app_e in Hi as [Hit Hif].
    destruct (T_init U V i Hsi HI HDi Hvi Hii) as (I1 & I2 & I3 & I4).
    assert (D1 : disj (with_init U i) (decls t)).
    { intros x Hx Hy. apply I4 in Hx as [Hx | Hx]; [now apply (HDt x)|]. apply (N3 x Hx), in_app_iff. auto. }
    assert (D2 : disj (with_init U i) (decls fb)).
    { intros x Hx Hy. apply I4 in Hx as [Hx | Hx]; [now apply (HDf x)|]. apply (N3 x Hx), in_app_iff. auto. }
    destruct (IHt (with_init U i) (with_init V i)) as (U2 & T2); auto.
    destruct (IHf (with_init U i) (with_init V i)) as (U3 & T3); auto.
    exists (with_init U i). split; [|eapply incl_tran; eauto].
    eapply tr_if; eauto using incl_refl. intros _. apply cond_repl; auto. eapply visible_incl; eauto.
  - intros i l c t IHt hasf fb IHf U V (Hsi & Hsc & Hst & Hsf) (_ & Pt & Pf) (_ & Jt & Jf) HI HD HN Hv Hi.
    cbn [decls_stmt] in HD, HN. apply disj_app_l in HD as [HDi HD]. apply disj_app_l in HD as [HDt HDf].
    apply NoDup_app_e in HN as (N1 & N2 & N3). apply NoDup_app_e in N2 as (N2 & N4 & N5).
    cbn [vnodes_stmt] in Hv. apply incl_app_e in Hv as [Hvi Hv]. apply incl_cons_inv in Hv as [Hvc Hv]. apply incl_app_e in Hv as [Hvt Hvf].
    cbn [info_stmt] in Hi. apply incl_app_e in Hi as [Hii Hi]. apply incl_cons_inv in Hi as [Hic Hi]. apply incl_app_e in Hi as [Hit Hif].
    destruct (T_init U V i Hsi HI HDi Hvi Hii) as (I1 & I2 & I3 & I4).
    assert (D1 : disj (with_init U i) (decls t)).
    { intros x Hx Hy. apply I4 in Hx as [Hx | Hx]; [now apply (HDt x)|]. apply (N3 x Hx), in_app_iff. auto. }
    assert (D2 : disj (with_init U i) (decls fb)).
    { intros x Hx Hy. apply I4 in Hx as [Hx | Hx]; [now apply (HDf x)|]. apply (N3 x Hx), in_app_iff. auto. }
    destruct (IHt (with_init U i) (with_init V i)) as (U2 & T2); auto.
    destruct (IHf (with_init U i) (with_init V i)) as (U3 & T3); auto.
    exists (with_init U i). split; [|eapply incl_tran; eauto].
    eapply tr_while; eauto using incl_refl. intros _. apply cond_repl; auto. eapply visible_incl; eauto.
  - intros b _ c _ U V _ _ [[] _].
  - intros l [e|]; [eapply T_prim; reflexivity|]. intros U V _ _ [[] _].
  - intros U V _ _ [[] _].
  - intros U V _ _ [[] _].
  - intros b IHb U V Hs [_ Pb] [_ Jb] HI HD HN Hv Hi. destruct (IHb U V) as (U2 & T2); auto.
    exists U. split; [|exact HI]. eapply tr_block; eauto.
  - intros U V _ _ _ _ _ _ _ _. exists U. constructor.
  - intros s IHs ss IHss U V [Hs Hss] [Ps Pss] [Js Jss] HI HD HN Hv Hi.
    cbn [decls] in HD, HN. apply disj_app_l in HD as [HD1 HD2]. apply NoDup_app_e in HN as (N1 & N2 & N3).
    cbn [vnodes] in Hv. apply incl_app_e in Hv as [Hv1 Hv2]. cbn [info] in Hi. apply incl_app_e in Hi as [Hi1 Hi2].
    destruct (IHs U V) as (U1 & T1 & I1); auto.
    change (repl_stmts r (SCons s ss)) with (ocons (Some (repl_stmt r s)) (repl_stmts r ss)).
    destruct (is_control s) eqn:Ctl.
    + exists U1. now apply trs_ctl.
    + destruct (IHss U1 (declared V s)) as (U2 & T2); auto.
      * intros x Hx Hy. destruct (tr_decls _ _ _ _ _ _ _ _ _ _ _ _ _ _ T1 x Hx) as [X | X]; [now apply (HD2 x) | now apply (N3 x)].
      * exists U2. eapply trs_cons; eauto.
Qed.
Theorem repl_run n args g0 w : run W L n {| f_params := f_params f; f_body := repl_stmts r (f_body f) |} args g0 w = run W L n f args g0 w.
Proof.
  assert (HD : disj Vp (decls (f_body f))).
  { intros x Hx Hy. destruct HW as (_ & _ & N). apply NoDup_app_e in N as (_ & _ & N). apply (N (NDecl x)); [|now apply decls_keys].
    unfold Vp in Hx. apply in_map_iff in Hx as (p & <- & Hp). apply in_map_iff. exists p. auto. }
  destruct (proj2 vp_trs (f_body f) Vp Vp) as (U' & T); auto using incl_refl.
  { apply HW. }
  { apply decls_nodup. exact (nodup_info W L f HW). }
  assert (M : fmatch W f VIN eq none none (execs W L n (f_body f) (start W f args g0 w)) (execs W L n (repl_stmts r (f_body f)) (start W f args g0 w))).
  { eapply sim_run; [exact V_edge | exact V_flow | exact V_end | exact V_weak | exact V_param | exact T | exact HD | apply V_start]. }
  unfold run. simpl f_body. change (start W _ args g0 w) with (start W f args g0 w).
  destruct M as [[(? & ? & _ & []) | (? & ? & _ & [])] | M].
  destruct (execs W L n (f_body f) (start W f args g0 w)) as [s|s|s|v s|x s|]; simpl in M; try tauto.
  - destruct M as (s' & V & -> & HV & HI). pose proof HI as (_ & <- & _). reflexivity.
  - destruct M as (s' & V & -> & HV & HI). pose proof HI as (_ & <- & _). reflexivity.
  - destruct M as (s' & -> & <-). reflexivity.
  - rewrite M. reflexivity.
Qed.
End Vp.
