(** Proofs about TryModel.v. *)
From Verif Require Import Base SyncModel TryModel TrySpec.

Scheme body_mut := Induction for body Sort Prop with fields_mut := Induction for fields Sort Prop.
Combined Scheme body_fields_ind from body_mut, fields_mut.
Scheme docb_mut := Minimality for doc_body Sort Prop with docf_mut := Minimality for doc_field Sort Prop with docfs_mut := Minimality for doc_fields Sort Prop.
Combined Scheme doc_ind from docb_mut, docf_mut, docfs_mut.

Definition ok (s : tst) : Prop := t_head s <= t_pos s /\ t_lah s = SNone.
Definition good (trim : bool) (s : tst) (r : tres) : Prop :=
  match r with
  | TDone s' => ok s' /\ t_pos s <= t_pos s' /\ (trim = false -> t_head s' = t_head s)
  | TExn _ s' => (trim = false -> t_head s' = t_head s /\ t_lah s' = SNone)
  end.

Lemma ok_trim trim s : ok s -> ok (t_trim trim s).
Proof. intros (A & B). unfold t_trim. destruct trim; simpl; [|split; assumption]. split; simpl; [lia|assumption]. Qed.
Lemma trim_pos trim s : t_pos (t_trim trim s) = t_pos s.
Proof. destruct trim; reflexivity. Qed.
Lemma trim_tr trim s : t_tr (t_trim trim s) = t_tr s.
Proof. destruct trim; reflexivity. Qed.
Lemma trim_false s : t_trim false s = s.
Proof. reflexivity. Qed.
Lemma exn_of_none a : exn_of a = None -> a = ANone.
Proof. destruct a; simpl; congruence. Qed.

Lemma after_field_good trim s h r : good trim s r -> good trim s (after_field h r).
Proof.
  destruct r as [s'|e s']; simpl; [|auto]. intros (A & B & C). destruct (exn_of (h (t_tr s'))); simpl; auto.
  intro E. split; [apply C; assumption|apply A].
Qed.
Lemma after_field_doc h b p tr r : doc_body b p tr (observed r) -> doc_field h b p tr (observed (after_field h r)).
Proof.
  destruct r as [s'|e s']; simpl; intro H.
  - destruct (exn_of (h (t_tr s'))) eqn:E; simpl; [eapply d_field_hook; eassumption|].
    apply d_field; [assumption|apply exn_of_none; assumption].
  - apply d_field_exn. assumption.
Qed.

Lemma parse_doc :
  (forall b trim s, tidy_body b -> ok s -> doc_body b (t_pos s) (t_tr s) (observed (parse_body b trim s)) /\ good trim s (parse_body b trim s)) /\
  (forall fs trim s, tidy_fields fs -> ok s -> doc_fields fs (t_pos s) (t_tr s) (observed (parse_fields fs trim s)) /\ good trim s (parse_fields fs trim s)).
Proof.
  apply body_fields_ind.
  - intros l trim s TI (O1 & O2). simpl. replace (Nat.ltb (t_pos s) (t_head s)) with false by (symmetry; apply Nat.ltb_ge; assumption).
    rewrite O2. destruct (TI (t_pos s) (t_lahe s) (t_lahe s)) as (_ & T).
    destruct (l (t_pos s) SNone (t_lahe s)) as [q l' e'| |] eqn:E.
    + destruct T as (T1 & ->). simpl. rewrite trim_pos, trim_tr. split; [eapply d_leaf; eassumption|].
      split; [apply ok_trim; split; simpl; [lia|reflexivity]|]. split; [assumption|]. intros ->. reflexivity.
    + simpl. split; [eapply d_leaf_fail; eassumption|]. auto.
    + simpl. split; [eapply d_leaf_other; eassumption|]. auto.
  - intros fs IH err trim s TI O. simpl. destruct (IH trim s TI O) as (H1 & H2).
    destruct (parse_fields fs trim s) as [s'|e s']; simpl in *.
    + split; [apply d_unit; assumption|assumption].
    + unfold on_error. simpl. destruct (exn_of (err (t_tr s'))) eqn:E; simpl.
      * split; [eapply d_unit_err'; eassumption|]. intro T. split; [apply H2; assumption|apply O].
      * split; [eapply d_unit_err; [eassumption|apply exn_of_none; assumption]|]. intro T. split; [apply H2; assumption|apply O].
  - intros fs _ se rest _ trim s [].
  - intros trim s _ O. simpl. split; [apply d_nil|]. split; [assumption|]. split; [lia|reflexivity].
  - intros t h err b IHb fs IHfs trim s (TE & TB & TF) O. cbn [parse_fields].
    set (tb := if t then false else trim).
    destruct (IHb tb s TB O) as (H1 & H2).
    apply (after_field_doc h) in H1. apply (after_field_good _ _ h) in H2.
    remember (after_field h (parse_body b tb s)) as r eqn:ER.
    assert (EQ : (if t then backtracking trim s (after_field h (parse_body b false s)) else after_field h (parse_body b trim s)) =
                 (if t then backtracking trim s r else r)) by (subst r tb; destruct t; reflexivity).
    rewrite EQ. clear EQ ER. destruct O as (O1 & O2).
    destruct r as [s'|e s']; simpl in H1, H2.
    + destruct H2 as (A & B & C).
      assert (NXT : (if t then backtracking trim s (TDone s') else TDone s') = TDone (if t then t_trim trim s' else s')) by (destruct t; reflexivity).
      rewrite NXT. set (s2 := if t then t_trim trim s' else s').
      assert (P2 : t_pos s2 = t_pos s' /\ t_tr s2 = t_tr s' /\ ok s2).
      { unfold s2. destruct t; [rewrite trim_pos, trim_tr; auto using ok_trim|auto]. }
      destruct P2 as (P2 & P3 & P4). destruct (IHfs trim s2 TF P4) as (F1 & F2). rewrite P2, P3 in F1.
      split; [eapply d_cons; eassumption|].
      assert (HD : trim = false -> t_head s2 = t_head s).
      { intros ->. unfold s2, tb in *. destruct t; [rewrite trim_false|]; apply C; reflexivity. }
      destruct (parse_fields fs trim s2) as [s3|e3 s3]; simpl in F2 |- *.
      * destruct F2 as (G1 & G2 & G3). split; [assumption|]. split; [lia|]. intro T. rewrite G3, HD; auto.
      * intro T. destruct (F2 T) as (G1 & G2). split; [rewrite G1; auto|assumption].
    + destruct t.
      * specialize (H2 eq_refl). destruct H2 as (K1 & K2). simpl.
        assert (OTH : e <> XBack -> doc_fields (FCons true h err b fs) (t_pos s) (t_tr s) (observed (on_error err e s')) /\ good trim s (on_error err e s')).
        { intro NE. unfold on_error. destruct (exn_of (err (t_tr s'))) as [e'|] eqn:EE; simpl.
          - split; [|auto]. eapply d_cons_exn'; [exact H1|auto|exact EE|]. intros _ ->. apply (TE eq_refl (t_tr s')). destruct (err (t_tr s')); simpl in EE; congruence.
          - split; [|auto]. apply d_cons_exn; [exact H1|auto|apply exn_of_none; assumption]. }
        destruct e; try (apply OTH; discriminate). clear OTH. simpl.
        set (s2 := t_trim trim (t_log (mkT (t_pos s) (t_head s') (t_lah s') (t_lahe s') (t_tr s')) (TBack (t_pos s)))).
        assert (P4 : ok s2) by (apply ok_trim; split; simpl; [lia|assumption]).
        assert (P2 : t_pos s2 = t_pos s) by (unfold s2; rewrite trim_pos; reflexivity).
        assert (P3 : t_tr s2 = TBack (t_pos s) :: t_tr s') by (unfold s2; rewrite trim_tr; reflexivity).
        destruct (IHfs trim s2 TF P4) as (F1 & F2). rewrite P2, P3 in F1.
        split; [eapply d_try; eassumption|].
        assert (HD : trim = false -> t_head s2 = t_head s) by (intros ->; exact K1).
        destruct (parse_fields fs trim s2) as [s3|e3 s3]; simpl in F2 |- *.
        -- destruct F2 as (G1 & G2 & G3). split; [assumption|]. split; [lia|]. intro T. rewrite G3, HD; auto.
        -- intro T. destruct (F2 T) as (G1 & G2). split; [rewrite G1; auto|assumption].
      * unfold on_error. destruct (exn_of (err (t_tr s'))) as [e'|] eqn:EE; simpl.
        -- split; [eapply d_cons_exn'; [exact H1|discriminate|exact EE|discriminate]|assumption].
        -- split; [apply d_cons_exn; [exact H1|discriminate|apply exn_of_none; assumption]|assumption].
Qed.

(** * The documented outcome is unique *)
Lemma doc_unique :
  (forall b p tr r, doc_body b p tr r -> tidy_body b -> forall r', doc_body b p tr r' -> r' = r) /\
  (forall h b p tr r, doc_field h b p tr r -> tidy_body b -> forall r', doc_field h b p tr r' -> r' = r) /\
  (forall fs p tr r, doc_fields fs p tr r -> tidy_fields fs -> forall r', doc_fields fs p tr r' -> r' = r).
Proof.
  apply doc_ind; intros; try (match goal with T : tidy_fields (FCons _ _ _ _ _) |- _ => destruct T as (TE & TB & TF) end);
    try (simpl in *; match goal with H : doc_body (BLeaf _) _ _ _, T : tidy_leaf _ |- _ => inversion H; subst; clear H; 
      match goal with A : ?l ?p SNone ?x = _, B : ?l ?p SNone ?y = _ |- _ => destruct (T p x y) as (TT & _); rewrite TT in *; congruence end end);
    match goal with R : ?D ?r' |- ?r' = _ => inversion R; subst; clear R end;
    repeat match goal with
    | IH : ?T -> forall r', _ -> r' = _, TT : ?T, X : _ |- _ => apply (IH TT) in X; try (inversion X; subst; clear X)
    end; simpl in *; try reflexivity; try congruence;
    repeat match goal with
    | A : ?h ?t = ANone, B : exn_of (?h ?t) = Some _ |- _ => rewrite A in B; simpl in B; discriminate
    | A : ?h ?t = ABack, B : exn_of (?h ?t) = Some _ |- _ => rewrite A in B; simpl in B; inversion B; subst; clear B
    | A : ?t = true -> ?x <> ?x |- _ => exfalso
    | A : true = true -> ?x <> ?x |- False => apply A; reflexivity
    end; auto; try congruence.
  all: exfalso; match goal with
  | A : true = true -> ?x <> ?x |- _ => apply (A eq_refl); reflexivity
  | A : true = true -> forall tr, _ tr <> ABack, B : _ = ABack |- _ => apply (A eq_refl _ B)
  | A : ?x <> ?x |- _ => apply A; reflexivity
  end.
Qed.

(** * No backtracking: &try makes no difference *)
Definition grows (tr : list tev) (r : dout) : Prop := exists l, tr_of r = l ++ tr.
Lemma grows_refl tr p : grows tr (DOk p tr).
Proof. exists []. reflexivity. Qed.
Lemma grows_trans tr l r : grows (l ++ tr) r -> grows tr r.
Proof. intros (m & E). exists (m ++ l). rewrite E, app_assoc. reflexivity. Qed.

Lemma doc_grows :
  (forall b p tr r, doc_body b p tr r -> grows tr r) /\ (forall h b p tr r, doc_field h b p tr r -> grows tr r) /\
  (forall fs p tr r, doc_fields fs p tr r -> grows tr r).
Proof.
  apply doc_ind; intros; try assumption; try (exists []; reflexivity); try (eexists [_]; reflexivity); 
    try (match goal with H : grows ?tr (DOk _ ?tr'), G : grows ?tr' ?r |- grows ?tr ?r => destruct H as (l & E); simpl in E; subst; eapply grows_trans; exact G end).
  - destruct H0 as (l & E). simpl in E. subst. apply (grows_trans tr (TBack p :: l)). exact H2.
  - destruct H0 as (l & E). simpl in E. subst. apply (grows_trans tr (TBack p :: l)). exact H4.
Qed.

Lemma grows_in tr r e : grows tr r -> In e tr -> In e (tr_of r).
Proof. intros (l & ->) H. apply in_or_app. auto. Qed.

Lemma doc_no_try :
  (forall b p tr r, doc_body b p tr r -> (forall q, ~ In (TBack q) (tr_of r)) -> doc_body (no_try_body b) p tr r) /\
  (forall h b p tr r, doc_field h b p tr r -> (forall q, ~ In (TBack q) (tr_of r)) -> doc_field h (no_try_body b) p tr r) /\
  (forall fs p tr r, doc_fields fs p tr r -> (forall q, ~ In (TBack q) (tr_of r)) -> doc_fields (no_try fs) p tr r).
Proof.
  assert (G := doc_grows). destruct G as (_ & _ & G).
  apply doc_ind; intros; simpl; try (econstructor; eauto; fail).
  - eapply d_cons; [apply H0|apply H2; assumption]. intros x X. apply (H3 x). eapply grows_in; [eapply G; exact H1|exact X].
  - exfalso. apply (H3 p). eapply grows_in; [eapply G; exact H1|left; reflexivity].
  - apply d_cons_exn; [apply H0; assumption|discriminate|assumption].
  - eapply d_cons_exn'; [apply H0; assumption|discriminate|exact H2|discriminate].
  - exfalso. apply (H5 p). eapply grows_in; [eapply G; exact H3|left; reflexivity].
Qed.
Lemma tidy_no_try :
  (forall b, tidy_body b -> tidy_body (no_try_body b)) /\ (forall fs, tidy_fields fs -> tidy_fields (no_try fs)).
Proof.
  apply body_fields_ind; simpl; intros; auto. destruct H1 as (A & B & C). split; [discriminate|]. auto.
Qed.

(** * Data is kept *)
Definition kept (trim : bool) (s : tst) (r : tres) : Prop :=
  match r with
  | TDone s' => t_head s' <= t_pos s' /\ t_pos s <= t_pos s' /\ (trim = false -> t_head s' = t_head s)
  | TExn e s' => e <> XInvalid /\ (trim = false -> t_head s' = t_head s)
  end.
Lemma exn_of_valid a e : exn_of a = Some e -> e <> XInvalid.
Proof. destruct a; simpl; congruence. Qed.
Lemma parse_kept :
  (forall b trim s, forward_body b -> t_head s <= t_pos s -> kept trim s (parse_body b trim s)) /\
  (forall fs trim s, forward_fields fs -> t_head s <= t_pos s -> kept trim s (parse_fields fs trim s)).
Proof.
  apply body_fields_ind.
  - intros l trim s F O. simpl. replace (Nat.ltb (t_pos s) (t_head s)) with false by (symmetry; apply Nat.ltb_ge; assumption).
    destruct (l (t_pos s) (t_lah s) (t_lahe s)) as [q l' e'| |] eqn:E; simpl; [|split; [discriminate|reflexivity]..].
    apply F in E. unfold t_trim. destruct trim; simpl; repeat split; try lia; discriminate.
  - intros fs IH err trim s F O. simpl. specialize (IH trim s F O). destruct (parse_fields fs trim s) as [s'|e s']; [exact IH|].
    unfold on_error. simpl. simpl in IH. destruct IH as (I1 & I2). destruct (exn_of (err (t_tr s'))) eqn:E; simpl; split; auto.
    eapply exn_of_valid; exact E.
  - intros fs _ se rest _ trim s [].
  - intros trim s _ O. simpl. repeat split; auto.
  - intros t h err b IHb fs IHfs trim s (FB & FF) O. cbn [parse_fields].
    assert (AF : forall tm, kept tm s (after_field h (parse_body b tm s))).
    { intro tm. specialize (IHb tm s FB O). destruct (parse_body b tm s) as [s'|e s']; simpl in *; [|assumption].
      destruct (exn_of (h (t_tr s'))) eqn:E; simpl; [|assumption]. split; [eapply exn_of_valid; exact E|apply IHb]. }
    assert (K : kept trim s (if t then backtracking trim s (after_field h (parse_body b false s)) else after_field h (parse_body b trim s))).
    { destruct t; [|apply AF]. specialize (AF false). destruct (after_field h (parse_body b false s)) as [s'|e s']; simpl in AF.
      - destruct AF as (A & B & C). simpl. unfold t_trim. specialize (C eq_refl). destruct trim; simpl; repeat split; auto; try lia; discriminate.
      - destruct AF as (A & B). specialize (B eq_refl). destruct e; simpl; auto.
        unfold t_trim. destruct trim; simpl; repeat split; auto; try lia; discriminate. }
    destruct (if t then _ else _) as [s'|e s'].
    + simpl in K. destruct K as (A & B & C). specialize (IHfs trim s' FF A). destruct (parse_fields fs trim s') as [s2|e s2]; simpl in *.
      * destruct IHfs as (D1 & D2 & D3). split; [assumption|]. split; [lia|]. intro T. rewrite D3, C; auto.
      * destruct IHfs as (D1 & D2). split; [assumption|]. intro T. rewrite D2, C; auto.
    + simpl in K. destruct K as (A & B). unfold on_error. destruct (exn_of (err (t_tr s'))) eqn:E; simpl; split; auto. eapply exn_of_valid; exact E.
Qed.
