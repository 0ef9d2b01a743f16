(* Evaluation with moves, and the simulation. *)
From Coq Require Import List Arith Bool ZArith Lia.
From Verif Require Import OptModel OptModel2 OptSpec OptSpec2 OptMvModel OptMvSpec OptProofs1 OptProofs2 OptProofs3 OptProofs4 OptProofs5 OptProofs6 OptProofs7 OptProofs8 OptProofs9 OptMvProofs OptMvProofs2.
Import ListNotations.

Section Ev.
Variable W : Type.
Variable L : lang W.
Variable M : list lab.
Variable left : var -> Z.
Variable HM : forall l, moved W L l = false.
Notation L' := (with_moves L M left).
Notation state := (state W).
Notation G := (glob W L).
Notation same_world := (same_world W).

Definition mvs (os : list (lab * var)) : list var := map snd (filter (fun p => mem (fst p) M) os).
Lemma mvs_in os x : In x (mvs os) <-> exists l, In (l, x) os /\ In l M.
Proof.
  unfold mvs. rewrite in_map_iff. split.
  - intros ((l & y) & <- & H). apply filter_In in H as [H1 H2]. exists l. split; auto. now apply mem_in.
  - intros (l & H1 & H2). exists (l, x). split; auto. apply filter_In. split; auto. now apply mem_in.
Qed.
Definition okm (ns : list var) (os : list (lab * var)) : Prop := forall x, In x (mvs os) -> G x = false /\ cnt ns x = 1.
Lemma okm_split n1 n2 o1 o2 : okm (n1 ++ n2) (o1 ++ o2) -> (forall l x, In (l, x) o1 -> In x n1) -> (forall l x, In (l, x) o2 -> In x n2) ->
  okm n1 o1 /\ okm n2 o2 /\ forall y, In y n2 -> ~ In y (mvs o1).
Proof.
  intros H I1 I2. assert (A : forall x, In x (mvs o1) -> G x = false /\ cnt n1 x = 1 /\ ~ In x n2).
  { intros x Hx. destruct (H x) as [H1 H2].
    - apply mvs_in in Hx as (l & Hl & Hm). apply mvs_in. exists l. rewrite in_app_iff. auto.
    - rewrite count_occ_app in H2. apply mvs_in in Hx as (l & Hl & Hm). apply I1, (count_occ_In Nat.eq_dec) in Hl. split; auto.
      unfold var in *. split; [lia|]. apply (count_occ_not_In Nat.eq_dec). lia. }
  split; [intros x Hx; destruct (A x Hx) as (A1 & A2 & _); auto|]. split; [|intros y Hy Hm; destruct (A y Hm) as (_ & _ & A3); auto].
  intros x Hx. destruct (H x) as [H1 H2].
  - apply mvs_in in Hx as (l & Hl & Hm). apply mvs_in. exists l. rewrite in_app_iff. auto.
  - rewrite count_occ_app in H2. apply mvs_in in Hx as (l & Hl & Hm). apply I2, (count_occ_In Nat.eq_dec) in Hl. split; auto.
    unfold var in *. lia.
Qed.

Definition keptb (xs : list var) (s s' t t' : state) : Prop :=
  same_world t t' /\ forall y, ~ In y xs -> loc s y = loc s' y -> loc t y = loc t' y.
Definition rmb {A} (xs : list var) (s s' : state) (r r' : res W A) : Prop :=
  match r, r' with
  | RVal v t, RVal v' t' => v = v' /\ keptb xs s s' t t'
  | RExc x t, RExc x' t' => x = x' /\ keptb xs s s' t t'
  | _, _ => False
  end.
Notation agree := (agree W L).
Lemma keptb_trans xs ys s s' t t' u u' : keptb xs s s' t t' -> keptb ys t t' u u' -> keptb (xs ++ ys) s s' u u'.
Proof. intros [A B] [C D]. split; auto. intros y Hy He. rewrite in_app_iff in Hy. apply D; [tauto|]. apply B; tauto. Qed.
Lemma keptb_weak xs ys s s' t t' : incl xs ys -> keptb xs s s' t t' -> keptb ys s s' t t'.
Proof. intros H [A B]. split; auto. Qed.
Lemma kept_keptb s s' t t' : kept W s s' t t' -> keptb [] s s' t t'.
Proof. intros [A B]. split; auto. Qed.
Lemma rm_rmb {A} s s' (r r' : res W A) : rmatch W s s' r r' -> rmb [] s s' r r'.
Proof. destruct r, r'; simpl; try tauto; intros [H1 H2]; split; auto using kept_keptb. Qed.
Lemma agree_keptb xs ns s s' t t' : keptb xs s s' t t' -> agree ns s s' -> (forall y, In y ns -> ~ In y xs) -> agree ns t t'.
Proof. intros [_ H] A D x Hx Hg. apply H; auto. Qed.
Lemma rmb_bind {A B} xs ys s s' (r r' : res W A) (k k' : A -> state -> res W B) :
  rmb xs s s' r r' -> (forall v t t', keptb xs s s' t t' -> rmb ys t t' (k v t) (k' v t')) ->
  rmb (xs ++ ys) s s' (bind W r k) (bind W r' k').
Proof.
  intros H K. destruct r as [v t | x t], r' as [v' t' | x' t']; simpl in H; try tauto.
  - destruct H as [<- H]. specialize (K v t t' H). simpl. destruct (k v t), (k' v t'); simpl in *; try tauto;
      destruct K as [<- K]; split; auto; eapply keptb_trans; eauto.
  - destruct H as [<- H]. simpl. split; auto. eapply keptb_weak; [|exact H]. apply incl_appl, incl_refl.
Qed.
Lemma rmb_bind0 {A B} xs s s' (r r' : res W A) (k k' : A -> state -> res W B) :
  rmb xs s s' r r' -> (forall v t t', keptb xs s s' t t' -> rmb [] t t' (k v t) (k' v t')) ->
  rmb xs s s' (bind W r k) (bind W r' k').
Proof. intros H K. rewrite <- (app_nil_r xs). now apply rmb_bind. Qed.
Lemma rmb_weak {A} xs ys s s' (r r' : res W A) : incl xs ys -> rmb xs s s' r r' -> rmb ys s s' r r'.
Proof. intros H. destruct r, r'; simpl; try tauto; intros [H1 H2]; split; auto; eapply keptb_weak; eauto. Qed.
Lemma rmb_val {A} xs s s' (v : A) : same_world s s' -> rmb xs s s' (RVal v s) (RVal v s').
Proof. intros H. simpl. split; auto. split; auto. Qed.
Lemma rmb_opt xs s s' o : same_world s s' -> rmb xs s s' (of_opt W o s) (of_opt W o s').
Proof. intros H. destruct o; simpl; split; auto; split; auto. Qed.
Lemma mvs_app a b : mvs (a ++ b) = mvs a ++ mvs b.
Proof. unfold mvs. now rewrite filter_app, map_app. Qed.

Lemma eval_moves_mut :
  (forall e s s', same_world s s' -> agree (names e) s s' -> okm (names e) (occ e) ->
     rmb (mvs (occ e)) s s' (eval W L e s) (eval W L' e s')) /\
  (forall a s s', same_world s s' -> agree (names_args a) s s' -> okm (names_args a) (occ_args a) ->
     rmb (mvs (occ_args a)) s s' (eval_args W L a s) (eval_args W L' a s') /\
     (forall vs t, eval_args W L a s = RVal vs t -> forall x, In (inr x) vs -> In x (call_gen_args a) /\ ~ In x (mvs (occ_args a)))).
Proof.
  pose proof (proj1 occ_names_mut) as ON. pose proof (proj2 occ_names_mut) as ONa.
  apply expr_mutind.
  - intros l c s s' H A O. ev. now apply rmb_val.
  - intros l x s s' H A O. ev. rewrite HM. change (get W L' s' x) with (get W L s' x). rewrite (get_agree W L x [x] s s'); simpl; auto. split; auto.
    unfold mvs in *. simpl. destruct (mem l M) eqn:B.
    + simpl. destruct (O x) as [O1 _]; [apply mvs_in; exists l; split; [simpl; auto | now apply mem_in]|].
      split; [unfold set; simpl; now rewrite O1|]. intros y Hy He. unfold set. simpl. rewrite O1. simpl. unfold fupd.
      destruct (y =? x) eqn:Ey; auto. apply Nat.eqb_eq in Ey. subst. destruct Hy. simpl. auto.
    + simpl. split; auto.
  - intros o e IH s s' H A O. ev. apply rmb_bind0; [now apply IH|]. intros v t t' K. apply rmb_opt, K.
  - intros o a IHa b IHb s s' H A O. ev. cbn [names names_args occ] in *. apply agree_app in A as [A1 A2].
    destruct (okm_split _ _ _ _ O (ON a) (ON b)) as (O1 & O2 & O3). rewrite mvs_app. apply rmb_bind; [now apply IHa|].
    intros v t t' K. apply rmb_bind0; [apply IHb; [apply K | eapply agree_keptb; eauto | auto]|]. intros w u u' K2. apply rmb_opt, K2.
  - intros e IH s s' H A O. ev. apply rmb_bind0; [now apply IH|]. intros v t t' K. apply rmb_val, K.
  - intros a IHa b IHb s s' H A O. ev. cbn [names names_args occ] in *. apply agree_app in A as [A1 A2].
    destruct (okm_split _ _ _ _ O (ON a) (ON b)) as (O1 & O2 & O3). rewrite mvs_app. apply rmb_bind; [now apply IHa|].
    intros v t t' K. destruct (truth v); [|apply rmb_val, K].
    apply rmb_bind0; [apply IHb; [apply K | eapply agree_keptb; eauto | auto]|]. intros w u u' K2. apply rmb_val, K2.
  - intros a IHa b IHb s s' H A O. ev. cbn [names names_args occ] in *. apply agree_app in A as [A1 A2].
    destruct (okm_split _ _ _ _ O (ON a) (ON b)) as (O1 & O2 & O3). rewrite mvs_app. apply rmb_bind; [now apply IHa|].
    intros v t t' K. destruct (truth v); [apply rmb_val, K|].
    apply rmb_bind0; [apply IHb; [apply K | eapply agree_keptb; eauto | auto]|]. intros w u u' K2. apply rmb_val, K2.
  - intros o x e IH s s' H A O. ev. cbn [names names_args occ] in *.
    assert (O' : okm (names e) (occ e) /\ ~ In x (mvs (occ e))).
    { destruct (okm_split (names e) [x] (occ e) []) as (O1 & _ & O3).
      - intros y Hy. rewrite app_nil_r in Hy. destruct (O y Hy) as [P1 P2]. split; auto. rewrite count_occ_app. rewrite cnt_cons in *. simpl count_occ. unfold var in *. lia.
      - apply ON.
      - intros ? ? [].
      - split; auto. apply O3. simpl. auto. }
    destruct O' as [O1 O2]. apply rmb_bind0; [apply IH; auto; intros y Hy; apply A; simpl; auto|].
    intros v t t' K. change (get W L' t' x) with (get W L t' x).
    rewrite (get_agree W L x [x] t t'); [|apply K | | simpl; auto].
    + change (op2 W L') with (op2 W L). apply rmb_bind0; [apply rmb_opt, K|]. intros w u u' K2. simpl. split; auto. apply kept_keptb.
      change (set W L' u' x w) with (set W L u' x w). apply set_kept, K2.
    + eapply agree_keptb; [exact K | intros y Hy; apply A; simpl in *; tauto |]. intros y [<- | []]. auto.
  - intros f a IHa s s' H A O. ev. cbn [names occ] in *. destruct (IHa s s' H A O) as [M1 M2].
    destruct (eval_args W L a s) as [vs t | x t] eqn:Ea, (eval_args W L' a s') as [vs' t' | x' t']; simpl in M1; try tauto.
    + destruct M1 as [<- K]. cbn [bind]. cbv zeta.
      assert (Ev : map (arg_val W L t) vs = map (arg_val W L' t') vs).
      { apply map_ext_in. intros [z | x] Hx; simpl; auto. destruct (M2 vs t eq_refl x Hx) as [Q1 Q2].
        change (get W L' t' x) with (get W L t' x). apply (get_agree W L x [x]); [apply K | | simpl; auto].
        eapply agree_keptb; [exact K | |].
        - intros y [<- | []]. apply A. now apply call_gen_mut.
        - intros y [<- | []]. exact Q2. }
      change (call W L') with (call W L). destruct K as [[K1 K2] K3]. rewrite Ev, K1, K2.
      set (r := call W L f _ _ _).
      set (u := {| loc := loc t; glb := cr_glb W r; wld := cr_wld W r |}).
      set (u' := {| loc := loc t'; glb := cr_glb W r; wld := cr_wld W r |}).
      assert (Ku : keptb (mvs (occ_args a)) s s' u u') by (split; [split; reflexivity | simpl; auto]).
      assert (Ew : forall xs vs s, write_outs W L' s xs vs = write_outs W L s xs vs).
      { induction xs as [|y xs IHx]; intros ws z; simpl; auto. }
      rewrite Ew. pose proof (write_outs_kept W L (inouts a) (cr_outs W r) u u' (proj1 Ku)) as Kw.
      destruct (cr_exc W r); simpl; split; auto; (rewrite <- (app_nil_r (mvs _)); eapply keptb_trans; [exact Ku | now apply kept_keptb]).
    + destruct M1 as [<- K]. simpl. auto.
  - intros s s' H A O. ev. split; [now apply rmb_val|]. intros vs t E. injection E as <- <-. simpl. tauto.
  - intros e IHe a IHa s s' H A O. ev. cbn [names_args occ_args] in *. apply agree_app in A as [A1 A2].
    destruct (okm_split _ _ _ _ O (ON e) (ONa a)) as (O1 & O2 & O3). split.
    + rewrite mvs_app. apply rmb_bind; [now apply IHe|]. intros v t t' K.
      apply rmb_bind0; [apply IHa; [apply K | eapply agree_keptb; eauto | auto]|]. intros w u u' K2. apply rmb_val, K2.
    + intros vs t E x Hx. destruct (eval W L e s) as [v t1 | ? ?] eqn:Ee; [|discriminate]. simpl in E.
      destruct (eval_args W L a t1) as [ws t2 | ? ?] eqn:Ea; [|discriminate]. simpl in E. injection E as <- <-.
      destruct Hx as [Hx | Hx]; [discriminate|].
      pose proof (IHe s s' H A1 O1) as Me. rewrite Ee in Me.
      destruct (eval W L' e s') as [v' t1' | ? ?]; simpl in Me; [|tauto]. destruct Me as [_ K].
      destruct (proj2 (IHa t1 t1' (proj1 K) (agree_keptb _ _ _ _ _ _ K A2 O3) O2) ws t2 Ea x Hx) as [Q1 Q2].
      split; [cbn [call_gen_args]; apply in_app_iff; auto|]. rewrite mvs_app, in_app_iff. intros [Q | Q]; [|auto].
      apply (O3 x); auto. now apply call_gen_mut.
  - intros x a IHa s s' H A O. ev. cbn [names_args occ_args] in *. assert (A2 : agree (names_args a) s s') by (intros y Hy; apply A; simpl; auto).
    assert (O' : okm (names_args a) (occ_args a) /\ ~ In x (mvs (occ_args a))).
    { destruct (okm_split (names_args a) [x] (occ_args a) []) as (O1 & _ & O3).
      - intros y Hy. rewrite app_nil_r in Hy. destruct (O y Hy) as [P1 P2]. split; auto. rewrite count_occ_app. rewrite cnt_cons in *. simpl count_occ. unfold var in *. lia.
      - apply ONa.
      - intros ? ? [].
      - split; auto. apply O3. simpl. auto. }
    destruct O' as [O1 O2]. split.
    + apply rmb_bind0; [now apply IHa|]. intros v t t' K. apply rmb_val, K.
    + intros vs t E y Hy. destruct (eval_args W L a s) as [ws t2 | ? ?] eqn:Ea; [|discriminate]. simpl in E. injection E as <- <-.
      destruct Hy as [Hy | Hy]; [injection Hy as ->; simpl; auto|].
      destruct (proj2 (IHa s s' H A2 O1) ws t2 Ea y Hy) as [Q1 Q2]. split; [simpl; auto | exact Q2].
Qed.
Lemma eval_moves e s s' : same_world s s' -> agree (names e) s s' -> okm (names e) (occ e) ->
  rmb (mvs (occ e)) s s' (eval W L e s) (eval W L' e s').
Proof. apply eval_moves_mut. Qed.
End Ev.
