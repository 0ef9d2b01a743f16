(* Replacing names by what they are known to be keeps what the function does. *)
From Coq Require Import List Arith Bool ZArith Lia.
From Verif Require Import OptModel OptModel2 OptSpec OptSpec2 OptProofs1 OptProofs2 OptProofs3 OptProofs4 OptProofs5 OptProofs6 OptProofs7 OptProofs8 OptProofs9.
Import ListNotations.

Lemma vnodes_keys : (forall s, map fst (vnodes_stmt s) = map fst (info_stmt s)) /\ (forall ss, map fst (vnodes ss) = map fst (info ss)).
Proof.
  assert (I : forall i, map fst (init_vnodes i) = map fst (init_info i)) by (intros [[x e]|]; reflexivity).
  apply stmt_mutind; simpl; intros; auto; rewrite ?map_app; simpl; rewrite ?map_app, ?I; try congruence.
  - destruct e; reflexivity.
  - destruct e; reflexivity.
Qed.
Lemma find_key {A} (l : list (gnode * A)) n v : NoDup (map fst l) -> In (n, v) l ->
  find (fun p => gnode_eqb (fst p) n) l = Some (n, v).
Proof.
  intros HN Hi. induction l as [|[m u] l IH]; simpl in *; [tauto|].
  inversion HN as [|? ? H1 H2]; subst. destruct Hi as [Hi | Hi].
  - injection Hi as -> ->. now rewrite gnode_eqb_refl.
  - destruct (gnode_eqb m n) eqn:E; auto. apply gnode_eqb_ok in E. subst. destruct H1. apply in_map_iff. exists (n, v). auto.
Qed.
Lemma find_no {A} (l : list (gnode * A)) n : ~ In n (map fst l) -> find (fun p => gnode_eqb (fst p) n) l = None.
Proof.
  intros H. destruct (find _ l) as [[m u]|] eqn:F; auto. apply find_some in F as [F1 F2]. simpl in F2.
  apply gnode_eqb_ok in F2. subst. destruct H. apply in_map_iff. exists (n, u). auto.
Qed.

(* ---- what evaluation changes ---- *)
Section Off.
Variable W : Type.
Variable L : lang W.
Notation state := (state W).
Variable HM : forall l, moved W L l = false.
Definition off (M : list var) (s t : state) : Prop := forall z, glob W L z = false -> ~ In z M -> loc t z = loc s z.
Lemma off_refl M s : off M s s.
Proof. intros z _ _. reflexivity. Qed.
Lemma off_trans M s t u : off M s t -> off M t u -> off M s u.
Proof. intros H1 H2 z Hg Hz. rewrite H2, H1; auto. Qed.
Lemma off_incl M N s t : incl M N -> off M s t -> off N s t.
Proof. intros H H1 z Hg Hz. apply H1; auto. Qed.
Definition roff {A} (M : list var) (s : state) (r : res W A) : Prop := match r with RVal _ t | RExc _ t => off M s t end.
Lemma roff_bind {A B} M s (r : res W A) (h : A -> state -> res W B) :
  roff M s r -> (forall v t, roff M t (h v t)) -> roff M s (bind W r h).
Proof.
  intros H K. destruct r as [v t | x t]; simpl in *; auto. specialize (K v t). destruct (h v t); simpl in *; eapply off_trans; eauto.
Qed.
Lemma roff_incl {A} M N s (r : res W A) : incl M N -> roff M s r -> roff N s r.
Proof. intros H. destruct r; apply off_incl; auto. Qed.
Lemma off_set s x v M : In x M -> off M s (set W L s x v).
Proof.
  intros H z Hg Hz. unfold set. destruct (glob W L x); auto. simpl. unfold fupd.
  destruct (Nat.eqb_spec z x) as [-> |]; auto. contradiction.
Qed.
Lemma off_outs xs M : incl xs M -> forall vs s, off M s (write_outs W L s xs vs).
Proof.
  induction xs as [|x xs IH]; intros H vs s; simpl; [apply off_refl|]. destruct vs as [|v vs]; [apply off_refl|].
  eapply off_trans; [apply off_set; apply H; simpl; auto | apply IH]. intros y Hy. apply H. simpl. auto.
Qed.
Lemma inouts_mods a : incl (inouts a) (mods_args a).
Proof.
  induction a as [|e a IH|x a IH]; simpl; [apply incl_refl | apply incl_appr; auto|]. intros y [<- | Hy]; simpl; auto.
Qed.
Lemma eval_off_mut : (forall e s, roff (mods e) s (eval W L e s)) /\ (forall a s, roff (mods_args a) s (eval_args W L a s)).
Proof.
  assert (V : forall A M (v : A) s, roff M s (RVal v s)) by (intros; apply off_refl).
  assert (O : forall M o s, roff M s (of_opt W o s)) by (intros M [v|] s; apply off_refl).
  apply expr_mutind; intros; ev; auto.
  - rewrite HM. auto.
  - apply roff_bind; auto.
  - cbn [mods]. apply roff_bind; [eapply roff_incl; [apply incl_appl, incl_refl | auto]|]. intros.
    apply roff_bind; [eapply roff_incl; [apply incl_appr, incl_refl | auto] | auto].
  - apply roff_bind; auto.
  - cbn [mods]. apply roff_bind; [eapply roff_incl; [apply incl_appl, incl_refl | auto]|]. intros. destruct (truth v); auto.
    apply roff_bind; [eapply roff_incl; [apply incl_appr, incl_refl | auto] | auto].
  - cbn [mods]. apply roff_bind; [eapply roff_incl; [apply incl_appl, incl_refl | auto]|]. intros. destruct (truth v); auto.
    apply roff_bind; [eapply roff_incl; [apply incl_appr, incl_refl | auto] | auto].
  - cbn [mods]. apply roff_bind; [eapply roff_incl; [apply incl_tl, incl_refl | auto]|]. intros.
    apply roff_bind; auto. intros. apply off_set. simpl. auto.
  - cbn [mods]. apply roff_bind; auto. intros vs t. cbv zeta.
    set (u := {| loc := loc t; glb := _; wld := _ |}).
    assert (X : off (mods_args a) t (write_outs W L u (inouts a) (cr_outs W (call W L f (map (arg_val W L t) vs) (glb t) (wld t))))).
    { eapply off_trans; [|apply off_outs, inouts_mods]. intros z _ _. reflexivity. }
    destruct (cr_exc W _); exact X.
  - cbn [mods_args]. apply roff_bind; [eapply roff_incl; [apply incl_appl, incl_refl | auto]|]. intros.
    apply roff_bind; [eapply roff_incl; [apply incl_appr, incl_refl | auto] | auto].
  - cbn [mods_args]. apply roff_bind; [eapply roff_incl; [apply incl_tl, incl_refl | auto] | auto].
Qed.
Lemma eval_off e s v t : eval W L e s = RVal v t -> off (mods e) s t.
Proof. intros H. pose proof (proj1 eval_off_mut e s) as X. now rewrite H in X. Qed.

(* Replacing names by expressions of the same value. *)
Variable r : vres.
Variable n : gnode.
Variable M : list var.
Variable s : state.
Variable P : var -> Prop.
Variable HN : forall l x, P x -> forall t, off M s t -> eval W L (repl_name r n l x) t = RVal (get W L t x) t.
Lemma inouts_repl a : inouts (repl_args r n a) = inouts a.
Proof. induction a as [|e a IH|x a IH]; [reflexivity | exact IH | exact (f_equal (cons x) IH)]. Qed.
Lemma bind_ext {A B} (q : res W A) (h h' : A -> state -> res W B) :
  roff M s q -> (forall v t, off M s t -> h v t = h' v t) -> bind W q h = bind W q h'.
Proof. intros H K. destruct q as [v t | x t]; simpl in *; auto. Qed.
Lemma roff_at {A} N (q : res W A) t : off M s t -> incl N M -> roff N t q -> roff M s q.
Proof. intros H HI. destruct q as [v u | x u]; simpl; intros X; eapply off_trans; eauto; eapply off_incl; eauto. Qed.
Lemma repl_eval_mut :
  (forall e, incl (mods e) M -> (forall x, In x (names e) -> P x) -> forall t, off M s t -> eval W L (repl r n e) t = eval W L e t) /\
  (forall a, incl (mods_args a) M -> (forall x, In x (names_args a) -> P x) -> forall t, off M s t ->
     eval_args W L (repl_args r n a) t = eval_args W L a t).
Proof.
  assert (OE : forall e t, incl (mods e) M -> off M s t -> roff M s (eval W L e t)).
  { intros e t H H1. eapply roff_at; eauto. apply eval_off_mut. }
  assert (OA : forall a t, incl (mods_args a) M -> off M s t -> roff M s (eval_args W L a t)).
  { intros a t H H1. eapply roff_at; eauto. apply eval_off_mut. }
  assert (AL : forall (a b c : list var), incl (a ++ b) c -> incl a c /\ incl b c).
  { intros a b c H. split; intros x Hx; apply H, in_app_iff; auto. }
  assert (AP : forall a b, (forall x, In x (a ++ b) -> P x) -> (forall x, In x a -> P x) /\ (forall x, In x b -> P x)).
  { intros a b H. split; intros x Hx; apply H, in_app_iff; auto. }
  apply expr_mutind.
  - reflexivity.
  - intros l x Hi Hp t Ht. cbn [repl]. rewrite HN; auto; [|apply Hp; simpl; auto]. ev. now rewrite HM.
  - intros o e IH Hi Hp t Ht. cbn [repl]. ev. now rewrite IH.
  - intros o a IHa b IHb Hi Hp t Ht. cbn [repl]. ev. apply AL in Hi as [Hi1 Hi2]. apply AP in Hp as [Hp1 Hp2]. rewrite IHa; auto.
    apply bind_ext; auto. intros v u Hu. now rewrite IHb.
  - intros e IH Hi Hp t Ht. cbn [repl]. ev. now rewrite IH.
  - intros a IHa b IHb Hi Hp t Ht. cbn [repl]. ev. apply AL in Hi as [Hi1 Hi2]. apply AP in Hp as [Hp1 Hp2]. rewrite IHa; auto.
    apply bind_ext; auto. intros v u Hu. destruct (truth v); auto. now rewrite IHb.
  - intros a IHa b IHb Hi Hp t Ht. cbn [repl]. ev. apply AL in Hi as [Hi1 Hi2]. apply AP in Hp as [Hp1 Hp2]. rewrite IHa; auto.
    apply bind_ext; auto. intros v u Hu. destruct (truth v); auto. now rewrite IHb.
  - intros o x e IH Hi Hp t Ht. cbn [repl]. ev. rewrite IH; auto; [intros y Hy; apply Hi; simpl; auto | intros y Hy; apply Hp; simpl; auto].
  - intros f a IH Hi Hp t Ht. change (repl r n (ECall f a)) with (ECall f (repl_args r n a)). ev. rewrite IH; auto. now rewrite inouts_repl.
  - reflexivity.
  - intros e IHe a IHa Hi Hp t Ht. cbn [repl_args]. ev. apply AL in Hi as [Hi1 Hi2]. apply AP in Hp as [Hp1 Hp2]. rewrite IHe; auto.
    apply bind_ext; auto. intros v u Hu. now rewrite IHa.
  - intros x a IH Hi Hp t Ht. cbn [repl_args]. ev. rewrite IH; auto; [intros y Hy; apply Hi; simpl; auto | intros y Hy; apply Hp; simpl; auto].
Qed.
End Off.

(* ---- facts about states ---- *)
Section Hold.
Variable W : Type.
Variable L : lang W.
Notation state := (state W).
Variable HM : forall l, moved W L l = false.
Let G := glob W L.
Definition hold (V : list var) (m : pmap) (s : state) : Prop := forall x, In x V ->
  has m x /\ (forall l c, fact m x (RConst l c) -> loc s x = c) /\ (forall l y, fact m x (RName l y) -> In y V /\ loc s x = loc s y).
Definition nong (V : list var) : Prop := forall x, In x V -> G x = false.
Lemma hold_same V a b s : same_map b a -> hold V a s -> hold V b s.
Proof.
  intros [S1 S2] H x Hx. destruct (H x Hx) as (H1 & H2 & H3). split; [now apply S1|]. split.
  - intros l c F. apply S2 in F. eauto.
  - intros l y F. apply S2 in F. eauto.
Qed.
Lemma hold_off V m s t M : nong V -> hold V m s -> off W L M s t -> hold V (taints M m) t.
Proof.
  intros HG H HO x Hx. destruct (H x Hx) as (H1 & H2 & H3). split; [now apply has_taints|]. split.
  - intros l c F. apply fact_taints in F as (F1 & F2 & _). rewrite HO; auto. apply (H2 _ _ F1).
  - intros l y F. apply fact_taints in F as (F1 & F2 & F3). destruct (H3 _ _ F1) as [Hy Hl]. split; auto.
    rewrite !HO; auto. intros X. apply (F3 y X). reflexivity.
Qed.
Lemma hold_inval V m s x : hold V m s -> hold V (inval x m) s.
Proof.
  intros H y Hy. destruct (H y Hy) as (H1 & H2 & H3). split; [now apply has_inval|]. split.
  - intros l c F. apply fact_inval in F as [F _]. eauto.
  - intros l z F. apply fact_inval in F as [F _]. eauto.
Qed.
Lemma resolve_name V m s k : hold V m s -> forall l x e, In x V -> resolve_r k m (RName l x) = Some e ->
  match e with RNull => False | RConst _ c => loc s x = c | RName _ y => In y V /\ loc s x = loc s y end.
Proof.
  intros H. induction k as [|k IH]; intros l x e Hx; simpl.
  - destruct (look m x) as [r|] eqn:E; [|intros X; injection X as <-; auto].
    destruct (rv_prop r) eqn:Ep; [|intros X; injection X as <-; auto].
    destruct (rv_expr r); try discriminate. intros X. injection X as <-. auto.
  - destruct (look m x) as [r|] eqn:E; [|intros X; injection X as <-; auto].
    destruct (rv_prop r) eqn:Ep; [|intros X; injection X as <-; auto].
    destruct (H x Hx) as (_ & H2 & H3).
    destruct (rv_expr r) as [|l' c|l' y] eqn:Er; [intros X; injection X as <-; auto| |].
    + assert (F : fact m x (RConst l' c)) by (exists r; auto). intros X.
      assert (X' : Some (RConst l' c) = Some e) by (destruct k; exact X). injection X' as <-. eauto.
    + assert (F : fact m x (RName l' y)) by (exists r; auto). destruct (H3 _ _ F) as [Hy Hl]. intros X.
      specialize (IH l' y e Hy X). rewrite Hl. auto.
Qed.
Lemma loc_set x v s : G x = false -> forall z, loc (set W L s x v) z = if z =? x then v else loc s z.
Proof. intros H z. unfold set. fold G. rewrite H. reflexivity. Qed.
Lemma hold_assign V V' m x e r0 s t v k : nong V -> G x = false -> hold V m s ->
  (forall z e0, In z V -> fact m z e0 -> ~ about e0 x) -> resolve k m e = Some r0 -> eval W L e s = RVal v t ->
  incl V V' -> incl V' (x :: V) -> visible G V e -> ~ plain_global G e ->
  In x V' -> hold V' (taints (mods e) (put m x (entry r0))) (set W L t x v).
Proof.
  intros HG HGx H HA HR HE HV HV' Hvis Hpg HxV z Hz.
  pose proof (eval_off W L HM _ _ _ _ HE) as HO.
  assert (Hz' : z = x \/ In z V) by (apply HV' in Hz as [<- | Hz]; auto).
  (* the value, if it is known *)
  assert (K : match r0 with RNull => True | RConst _ c => v = c | RName _ y => In y V /\ v = loc s y /\ mods e = [] /\ t = s end).
  { unfold resolve in HR. destruct e; cbn [to_r] in HR; try (destruct k; injection HR as <-; exact I).
    - assert (X : Some (RConst l c) = Some r0) by (destruct k; exact HR). injection X as <-. ev. rewrite eval_const in HE. now injection HE as <- <-.
    - rewrite eval_name, HM in HE. injection HE as <- <-. destruct (Hvis x0 (or_introl eq_refl)) as [Hg | Hx0]; [contradiction|].
      pose proof (resolve_name V m s k H l x0 r0 Hx0 HR) as X. unfold get. fold G. rewrite (HG _ Hx0).
      destruct r0; tauto. }
  split; [apply has_taints, has_put; destruct Hz' as [-> | Hz']; auto; right; now apply H|].
  assert (F : forall e0, fact (taints (mods e) (put m x (entry r0))) z e0 ->
     (z = x /\ e0 = r0 /\ r0 <> RNull) \/ (z <> x /\ In z V /\ fact m z e0 /\ ~ In z (mods e) /\ forall y, In y (mods e) -> ~ about e0 y)).
  { intros e0 F. apply fact_taints in F as (F1 & F2 & F3). apply fact_put in F1 as [(-> & F1 & F4) | [F1 F4]].
    - left. simpl in *. split; auto. split; auto. destruct r0; discriminate.
    - right. destruct Hz' as [? | Hz']; [contradiction|]. auto. }
  split.
  - intros l c Fz. rewrite loc_set by auto. destruct (F _ Fz) as [(-> & E0 & _) | (Hne & HzV & F1 & F2 & _)].
    + rewrite Nat.eqb_refl. rewrite <- E0 in K. auto.
    + apply Nat.eqb_neq in Hne. rewrite Hne. rewrite (HO z (HG z HzV) F2). destruct (H z HzV) as (_ & H2 & _). eauto.
  - intros l y Fz. rewrite !loc_set by auto. destruct (F _ Fz) as [(-> & E0 & _) | (Hne & HzV & F1 & F2 & F3)].
    + rewrite <- E0 in K. destruct K as (Ky & Kv & _ & ->). split; auto. rewrite Nat.eqb_refl.
      destruct (y =? x); auto.
    + destruct (H z HzV) as (_ & _ & H3). destruct (H3 _ _ F1) as [Hy Hl]. split; auto.
      apply Nat.eqb_neq in Hne. rewrite Hne. assert (Hyx : y <> x) by (intros ->; apply (HA _ _ HzV F1); reflexivity).
      apply Nat.eqb_neq in Hyx. rewrite Hyx. rewrite !HO; auto. intros X. apply (F3 y X). reflexivity.
Qed.
End Hold.
