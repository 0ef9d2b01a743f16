(** The code generated for a chain of links. *)
From Verif Require Import Base GrammarModel GrammarSpec GrammarProofs GrammarProofs2 GrammarProofs3 GrammarProps LahModel LahSpec LahSpec2 LahProofs LahProofs2 LahProofs3 LahProofs4 SwitchModel SwitchSpec SwitchProofs.
Local Open Scope nat_scope.

Section S.
Context {E : Type} (P : prog E) (I : input) (g : grammar) (CG : compiled P g) (cond : E -> bool).
Implicit Types x y : st E.

Inductive chain : list sym -> list ldefault -> sym -> Prop :=
| ch_one c : chain [c] [] c
| ch_link cs ds s q c : chain cs ds s -> find g q = Some (PLook s c) -> p_call P q = None -> (forall e, p_cond P q e = cond e /\ p_size P q e = None) ->
    (forall a b t, find g s = Some (PLook a b) -> Flw g s t -> Flw g q t) -> chain (cs ++ [c]) (ds ++ [p_default P q]) q.

Lemma chain_down cs ds q : chain cs ds q -> forall c, In c cs -> derives g [q] [c].
Proof.
  induction 1 as [c|cs ds s q c H IH F CL CN FL]; intros c' IC.
  - destruct IC as [<- | []]. constructor.
  - apply in_app_iff in IC. destruct IC as [IC | [<- | []]].
    + eapply derives_trans; [|apply IH; exact IC]. apply derives_one. unfold rhss_of. rewrite F. left. reflexivity.
    + apply derives_one. unfold rhss_of. rewrite F. right. left. reflexivity.
Qed.
Lemma chain_split cs ds q : chain cs ds q -> forall after t, FstL g (q :: after) t -> exists c, In c cs /\ FstL g (c :: after) t.
Proof.
  induction 1 as [c|cs ds s q c H IH F CL CN FL]; intros after t FT.
  - exists c. split; [left; reflexivity|exact FT].
  - destruct (look_split g q s c after t F FT) as [FS | FC].
    + destruct (IH _ _ FS) as (c' & IC & FC). exists c'. split; [apply in_app_iff; left; exact IC|exact FC].
    + exists c. split; [apply in_app_iff; right; left; reflexivity|exact FC].
Qed.
(** Tokens of a case, seen from the switch and from a link inside. *)
Lemma case_of_link cs ds s q t : chain cs ds s -> next_token g q s t -> exists c, In c cs /\ next_token g q c t.
Proof.
  intros H (u & v & D & CS). apply FstL_iff in CS. destruct (chain_split _ _ _ H _ _ CS) as (c & IC & FC). exists c. split; [exact IC|]. exists u, v. split; [exact D|]. apply FstL_iff. exact FC.
Qed.
Lemma link_of_case cs ds s q c t : chain cs ds s -> In c cs -> next_token g q c t -> next_token g q s t.
Proof.
  intros H IC (u & v & D & TK & more & CS). exists u, v. split; [exact D|]. split; [exact TK|]. exists more. eapply derives_trans; [|exact CS].
  pose proof (derives_ctx g [] v _ _ (chain_down _ _ _ H c IC)) as K. cbn [app] in K. exact K.
Qed.
Lemma inside_token q s b c t : find g q = Some (PLook s b) -> next_token g q c t -> next_token g s c t.
Proof.
  intros F (u & v & D & CS). exists u, v. split; [|exact CS]. apply (derives_expand g u q v [s]) in D; [exact D|]. unfold rhss_of. rewrite F. left. reflexivity.
Qed.
Lemma outside_token q s c t : reached g q -> (Flw g s t -> Flw g q t) -> next_token g s c t -> next_token g q c t.
Proof.
  intros RE FL (u & v & D & CS). apply FstL_iff in CS. change (c :: v) with ([c] ++ v) in CS. apply FstL_app in CS. destruct CS as [FC | (NC & FV)].
  - destruct RE as (u' & v' & D'). exists u', v'. split; [exact D'|]. apply FstL_iff. change (c :: v') with ([c] ++ v'). apply FstL_app. left. exact FC.
  - assert (FS : Flw g s t) by (eapply derives_flw; [exact D|reflexivity|exact FV]). apply FL in FS. apply Flw_iff in FS. destruct FS as (TK & u' & v' & D'). exists u', (t :: v'). split; [exact D'|].
    apply FstL_iff. change (c :: t :: v') with ([c] ++ t :: v'). apply FstL_app. right. split; [exact NC|]. exists [], t, v'. split; [reflexivity|]. split; [constructor|apply fst_tok; exact TK].
Qed.

(** One link at run time. *)
Definition taken (q a b : sym) x (m : nat) : result E :=
  match choose P q a b (s_lah x) with First => parse P I m a x | Second => parse P I m b x | Neither | EodError => Fail end.
Lemma parse_link q a b x y m : find g q = Some (PLook a b) -> p_call P q = None -> (forall e, p_cond P q e = cond e /\ p_size P q e = None) -> cond (s_env x) = true ->
  look P I q x = Done y -> parse P I (S m) q x = taken q a b y m.
Proof.
  intros F CL CN CD L. cbn [parse]. destruct CG as (_ & PP & _). rewrite (PP q _ F), CL. destruct (CN (s_env x)) as (-> & ->). rewrite CD. cbn [sized LahModel.step]. rewrite L. reflexivity.
Qed.
Lemma tok_lit t : find g t <> None -> lit_of P t = tok_of g t.
Proof.
  intros N. destruct CG as (_ & PP & _). unfold lit_of, tok_of. destruct (find g t) as [p|] eqn:F; [|congruence]. rewrite (PP t p F). reflexivity.
Qed.
Lemma next_found q c t : next_token g q c t -> find g t <> None.
Proof. intros (u & v & _ & (p & F & _) & _). congruence. Qed.
Lemma token_ids_In v l : In l (token_ids P v) <-> exists t, In t v /\ lit_of P t = Some l.
Proof.
  unfold token_ids. rewrite in_flat_map. split; intros (t & IT & H); exists t; (split; [exact IT|]).
  - destruct (lit_of P t); [destruct H as [<- | []]; reflexivity|destruct H].
  - rewrite H. left. reflexivity.
Qed.
(** The look-ahead sets, by their literals. *)
Lemma lits_of q a b : reached g q -> find g q = Some (PLook a b) -> exists v0 v1, p_lahs P q = (v0, v1) /\
  (forall z, In z v0 <-> next_token g q a z) /\ (forall z, In z v1 <-> next_token g q b z) /\ (forall z, In z v0 -> ~ In z v1) /\
  (forall l, In l (token_ids P v0) <-> exists t, next_token g q a t /\ tok_of g t = Some l) /\ (forall l, In l (token_ids P v1) <-> exists t, next_token g q b t /\ tok_of g t = Some l).
Proof.
  intros RE F. destruct (sets_exact0 P g q a b CG RE F) as (v0 & v1 & PL & A0 & A1 & _ & DJ). exists v0, v1. split; [exact PL|]. split; [exact A0|]. split; [exact A1|]. split; [exact DJ|].
  assert (X : forall v c, (forall z, In z v <-> next_token g q c z) -> forall l, In l (token_ids P v) <-> exists t, next_token g q c t /\ tok_of g t = Some l).
  { intros v c A l. rewrite token_ids_In. split; intros (t & N & L); exists t.
    - apply A in N. split; [exact N|]. rewrite <- tok_lit; [exact L|eapply next_found; exact N].
    - split; [apply A; exact N|]. rewrite tok_lit; [exact L|eapply next_found; exact N]. }
  split; apply X; assumption.
Qed.
Lemma inner_reached q s b : reached g q -> find g q = Some (PLook s b) -> reached g s.
Proof. intros (u & v & D) F. exists u, v. apply (derives_expand g u q v [s]) in D; [exact D|]. unfold rhss_of. rewrite F. left. reflexivity. Qed.
Lemma chain_case cs ds s : chain cs ds s -> (exists c, cs = [c] /\ s = c) \/ exists a b, find g s = Some (PLook a b).
Proof. destruct 1; eauto. Qed.

(** A token selects the case that begins with it. *)
Lemma chain_token cs ds q : chain cs ds q -> forall c t l x, reached g q -> In c cs -> next_token g q c t -> tok_of g t = Some l ->
  (forall c' t', In c' cs -> next_token g q c' t' -> tok_of g t' = Some l -> t' = t) -> s_lah x = LTok l -> cond (s_env x) = true ->
  exists k, (ds <> [] -> k <> 0) /\ forall m, parse P I (k + m) q x = parse P I m c x.
Proof.
  induction 1 as [c0|cs ds s q c0 H IH F CL CN FL]; intros c t l x RE IC NT TL UQ LX CX.
  - destruct IC as [<- | []]. exists 0. split; [congruence|reflexivity].
  - destruct (lits_of q s c0 RE F) as (v0 & v1 & PL & A0 & A1 & DJ & T0 & T1).
    assert (LK : look P I q x = Done x) by (unfold look; rewrite LX; reflexivity).
    assert (CH : forall b, mem l (token_ids P v0) = b -> (b = false -> In l (token_ids P v1)) -> choose P q s c0 (LTok l) = if b then First else Second).
    { intros b B K. unfold choose. rewrite PL, B. destruct b; [reflexivity|]. rewrite (proj2 (mem_In _ _) (K eq_refl)). reflexivity. }
    apply in_app_iff in IC. destruct IC as [IC | [<- | []]].
    + assert (IS : next_token g q s t) by (eapply link_of_case; eassumption).
      specialize (CH true (proj2 (mem_In _ _) (proj2 (T0 l) (ex_intro _ t (conj IS TL)))) ltac:(discriminate)).
      destruct (chain_case _ _ _ H) as [(c1 & -> & ->) | (a & b & FS)].
      * destruct IC as [<- | []]. exists 1. split; [discriminate|]. intros m. cbn [Nat.add]. rewrite (parse_link q c1 c0 x x m F CL CN CX LK). unfold taken. rewrite LX, CH. reflexivity.
      * destruct (IH c t l x) as (k & _ & R); try assumption.
        -- eapply inner_reached; eassumption.
        -- eapply inside_token; eassumption.
        -- intros c' t' IC' NT' TL'. apply (UQ c' t'); [apply in_app_iff; left; exact IC'| |exact TL']. eapply outside_token; [exact RE|intros; eapply FL; eassumption|exact NT'].
        -- exists (S k). split; [discriminate|]. intros m. cbn [Nat.add]. rewrite (parse_link q s c0 x x (k + m) F CL CN CX LK). unfold taken. rewrite LX, CH. apply R.
    + assert (M : mem l (token_ids P v0) = false).
      { apply mem_false. intros K. apply (proj1 (T0 l)) in K. destruct K as (t' & NT' & TL'). destruct (case_of_link _ _ _ _ _ H NT') as (c' & IC' & NC').
        assert (t' = t) as -> by (apply (UQ c' t'); [apply in_app_iff; left; exact IC'|exact NC'|exact TL']). apply (DJ t); [apply A0; exact NT'|apply A1; exact NT]. }
      specialize (CH false M (fun _ => proj2 (T1 l) (ex_intro _ t (conj NT TL)))).
      exists 1. split; [discriminate|]. intros m. cbn [Nat.add]. rewrite (parse_link q s c0 x x m F CL CN CX LK). unfold taken. rewrite LX, CH. reflexivity.
Qed.

(** Nothing in the input. *)
Context (CLOSED : i_closed I = true).
Definition none_here (cs : list sym) (q : sym) x : Prop := forall c t l, In c cs -> next_token g q c t -> tok_of g t = Some l -> constant P l /\ ~ matches P I l (s_pos x).
Lemma look_none cs ds q s c x : chain cs ds s -> find g q = Some (PLook s c) -> reached g q -> none_here (cs ++ [c]) q x -> state_ok I x -> s_lah x = LNone -> rest_at I None (s_pos x) <> [] ->
  exists y, look P I q x = Done y /\ state_ok I y /\ same x y.
Proof.
  intros H F RE NH O LX NE. destruct (lits_of q s c RE F) as (v0 & v1 & PL & A0 & A1 & DJ & T0 & T1).
  unfold look. rewrite LX, PL. unfold get_look_ahead. destruct (at_eod_now I CLOSED x O) as (z & AE & OZ & SZ). rewrite AE. destruct (rest_at I None (s_pos x)) as [|b0 r0] eqn:RX; [congruence|].
  assert (ALL : forall l, In l (token_ids P (union v0 v1)) -> constant P l /\ ~ matches P I l (s_pos x)).
  { intros l IL. apply token_ids_In in IL. destruct IL as (t & IT & L). apply union_In in IT. destruct IT as [IT | IT].
    - apply A0 in IT. destruct (case_of_link _ _ _ _ _ H IT) as (c' & IC & NC). apply (NH c' t l); [apply in_app_iff; left; exact IC|exact NC|]. rewrite <- tok_lit; [exact L|eapply next_found; exact NC].
    - apply A1 in IT. apply (NH c t l); [apply in_app_iff; right; left; reflexivity|exact IT|]. rewrite <- tok_lit; [exact L|eapply next_found; exact IT]. }
  assert (NR : filter (is_rx P) (token_ids P (union v0 v1)) = []).
  { induction (token_ids P (union v0 v1)) as [|l ls IHl]; [reflexivity|]. cbn [filter]. destruct (ALL l (or_introl eq_refl)) as ((w & KD & _) & _). unfold is_rx at 1. rewrite KD. apply IHl. intros l' IL. apply ALL. right. exact IL. }
  rewrite NR. destruct (miss_others P I CLOSED (token_ids P (union v0 v1)) true z OZ) as (y & L & OY & SY).
  - intros l IL. assert (s_pos z = s_pos x) as -> by (symmetry; apply SZ). apply ALL. exact IL.
  - exists y. specialize (L []). rewrite app_nil_r in L. rewrite L. split; [reflexivity|]. split; [exact OY|eapply same_trans; eassumption].
Qed.
Lemma none_inside cs ds s q c x : chain cs ds s -> (forall a b t, find g s = Some (PLook a b) -> Flw g s t -> Flw g q t) -> reached g q ->
  (exists a b, find g s = Some (PLook a b)) -> none_here (cs ++ [c]) q x -> none_here cs s x.
Proof.
  intros H FL RE (a & b & FS) NH c' t l IC NT TL. apply (NH c' t l); [apply in_app_iff; left; exact IC| |exact TL]. eapply outside_token; [exact RE|intros; eapply FL; eassumption|exact NT].
Qed.
Lemma none_same cs q x y : same x y -> none_here cs q x -> none_here cs q y.
Proof. intros (A & _) H. unfold none_here. rewrite <- A. exact H. Qed.
Definition goes q x c : Prop := exists k y, s_pos y = s_pos x /\ s_env y = s_env x /\ s_lim y = s_lim x /\ forall m, parse P I (k + m) q x = parse P I m c y.
Lemma goes_same q x y c k0 : same x y -> (forall m, parse P I (k0 + m) q x = parse P I m c y) -> goes q x c.
Proof. intros (A & B & _ & _ & C) H. exists k0, y. repeat split; auto. Qed.

Lemma chain_none_first cs ds q : chain cs ds q -> forall x, (forall d, In d ds -> d = DFirst) -> reached g q -> none_here cs q x -> state_ok I x -> s_lah x = LNone ->
  rest_at I None (s_pos x) <> [] -> cond (s_env x) = true -> goes q x (hd 0 cs).
Proof.
  induction 1 as [c0|cs ds s q c0 H IH F CL CN FL]; intros x DF RE NH O LX NE CX.
  - apply (goes_same _ x x _ 0); [apply same_refl|reflexivity].
  - destruct (look_none cs ds q s c0 x H F RE NH O LX NE) as (y & LK & OY & SY). pose proof SY as (SP & SL & SLa & _ & SE).
    assert (LY : s_lah y = LNone) by congruence.
    assert (CH : choose P q s c0 (s_lah y) = First).
    { rewrite LY. unfold choose. destruct (p_lahs P q) as [v0 v1]. rewrite (DF (p_default P q) ltac:(apply in_app_iff; right; left; reflexivity)). reflexivity. }
    assert (HD : hd 0 (cs ++ [c0]) = hd 0 cs) by (destruct H as [|cs' ? ? ? ? H']; [reflexivity|destruct cs'; [inversion H'; destruct cs; discriminate|reflexivity]]).
    rewrite HD. destruct (chain_case _ _ _ H) as [(c1 & -> & ->) | EL].
    + apply (goes_same _ x y _ 1 SY). intros m. cbn [Nat.add]. rewrite (parse_link q c1 c0 x y m F CL CN CX LK). unfold taken. rewrite CH. reflexivity.
    + destruct (IH y) as (k & z & ZP & ZE & ZL & R).
      * intros d ID. apply DF. apply in_app_iff. left. exact ID.
      * eapply inner_reached; eassumption.
      * apply (none_same _ _ x y SY). eapply none_inside; eassumption.
      * exact OY.
      * exact LY.
      * rewrite <- SP. exact NE.
      * rewrite <- SE. exact CX.
      * exists (S k), z. repeat split; try congruence. intros m. cbn [Nat.add]. rewrite (parse_link q s c0 x y (k + m) F CL CN CX LK). unfold taken. rewrite CH. apply R.
Qed.
(** The outermost link decides for the last case, or for an error. *)
Lemma chain_none_last cs ds q c0 d : chain (cs ++ [c0]) (ds ++ [d]) q -> forall x, reached g q -> none_here (cs ++ [c0]) q x -> state_ok I x -> s_lah x = LNone ->
  rest_at I None (s_pos x) <> [] -> cond (s_env x) = true ->
  (d = DSecond -> goes q x c0) /\
  (d = DNone -> (exists c t l, In c cs /\ next_token g q c t /\ tok_of g t = Some l) ->
    ((exists t l, next_token g q c0 t /\ tok_of g t = Some l) -> forall m, parse P I (S m) q x = Fail) /\
    ((forall t l, next_token g q c0 t -> tok_of g t <> Some l) -> (exists ps es, p_prod P c0 = Some (PBlock ps es)) -> goes q x c0)).
Proof.
  intros H x RE NH O LX NE CX. inversion H as [|cs1 ds1 s q' c1 H1 F CL CN FL EC ED]; [destruct ds; discriminate|]. subst q'. apply app_inj_tail in EC. destruct EC as (-> & ->). apply app_inj_tail in ED. destruct ED as (-> & <-). clear H.
  destruct (look_none cs ds q s c0 x H1 F RE NH O LX NE) as (y & LK & OY & SY). pose proof SY as (SP & SL & SLa & _ & SE). assert (LY : s_lah y = LNone) by congruence.
  assert (GO : choose P q s c0 LNone = Second -> goes q x c0).
  { intros CH. apply (goes_same _ x y _ 1 SY). intros m. cbn [Nat.add]. rewrite (parse_link q s c0 x y m F CL CN CX LK). unfold taken. rewrite LY, CH. reflexivity. }
  destruct (lits_of q s c0 RE F) as (v0 & v1 & PL & A0 & A1 & DJ & T0 & T1). split.
  - intros D. apply GO. unfold choose. rewrite PL, D. reflexivity.
  - intros D (c & t & l & IC & NT & TL).
    assert (N0 : null (token_ids P v0) = false).
    { assert (K : In l (token_ids P v0)) by (apply T0; exists t; split; [eapply link_of_case; eassumption|exact TL]). destruct (token_ids P v0); [destruct K|reflexivity]. }
    split.
    + intros (t' & l' & NT' & TL') m. rewrite (parse_link q s c0 x y m F CL CN CX LK). unfold taken, choose. rewrite LY, PL, D, N0.
      assert (K : In l' (token_ids P v1)) by (apply T1; eauto). destruct (token_ids P v1); [destruct K|reflexivity].
    + intros NL (ps & es & PB). apply GO. unfold choose. rewrite PL, D, N0. assert (N1 : token_ids P v1 = []).
      { destruct (token_ids P v1) as [|l1 r] eqn:TV; [reflexivity|]. destruct (proj1 (T1 l1) (or_introl eq_refl)) as (t1 & NT1 & TL1). destruct (NL t1 l1 NT1 TL1). }
      rewrite N1. unfold is_epsilon. rewrite PB. rewrite andb_false_r. destruct (negb _ && false) eqn:X; [rewrite andb_false_r in X; discriminate|reflexivity].
Qed.
(** At the end of the data. *)
Lemma chain_end cs ds q s c0 : chain cs ds s -> find g q = Some (PLook s c0) -> p_call P q = None -> (forall e, p_cond P q e = cond e /\ p_size P q e = None) ->
  (forall c, In c (cs ++ [c0]) -> exists ps es, p_prod P c = Some (PBlock ps es)) ->
  forall x, state_ok I x -> s_lah x = LNone -> rest_at I None (s_pos x) = [] -> cond (s_env x) = true -> forall m, parse P I (S m) q x = Fail.
Proof.
  intros H F CL CN BL x O LX NE CX m. assert (IS : is_epsilon P s = false /\ is_epsilon P c0 = false).
  { split; unfold is_epsilon.
    - destruct (chain_case _ _ _ H) as [(c1 & -> & ->) | (a & b & FS)].
      + destruct (BL c1 (or_introl eq_refl)) as (ps & es & ->). reflexivity.
      + destruct CG as (_ & PP & _). rewrite (PP _ _ FS). reflexivity.
    - destruct (BL c0 ltac:(apply in_app_iff; right; left; reflexivity)) as (ps & es & ->). reflexivity. }
  destruct (at_eod_now I CLOSED x O) as (z & AE & OZ & SZ). rewrite NE in AE.
  assert (LK : look P I q x = Done (set_lah z LEod (s_lahe z))).
  { unfold look. rewrite LX. destruct (p_lahs P q) as [v0 v1]. unfold get_look_ahead. rewrite AE. reflexivity. }
  rewrite (parse_link q s c0 x _ m F CL CN CX LK). unfold taken, choose. cbn [s_lah set_lah]. destruct (p_lahs P q) as [v0 v1]. destruct IS as (-> & ->). rewrite !andb_false_r. reflexivity.
Qed.

(** A literal is there. *)
Lemma look_some cs ds q s c0 c t l x : chain cs ds s -> find g q = Some (PLook s c0) -> reached g q ->
  In c (cs ++ [c0]) -> next_token g q c t -> tok_of g t = Some l -> constant P l -> matches P I l (s_pos x) ->
  (forall c' t' l', In c' (cs ++ [c0]) -> next_token g q c' t' -> tok_of g t' = Some l' -> constant P l' /\ (t' <> t -> ~ matches P I l' (s_pos x))) ->
  state_ok I x -> s_lah x = LNone -> s_lahe x <= s_pos x ->
  exists y, look P I q x = Done y /\ state_ok I y /\ keeps x y /\ s_lah y = LTok l.
Proof.
  intros H F RE IC NT TL CO MA OT O LX LE. destruct (lits_of q s c0 RE F) as (v0 & v1 & PL & A0 & A1 & DJ & T0 & T1).
  destruct (sets_exact0 P g q s c0 CG RE F) as (v0' & v1' & PL' & _ & _ & ND & _). rewrite PL in PL'. injection PL' as <- <-.
  assert (EXP : forall t', In t' (union v0 v1) -> exists c', In c' (cs ++ [c0]) /\ next_token g q c' t').
  { intros t' IT. apply union_In in IT. destruct IT as [IT | IT].
    - apply A0 in IT. destruct (case_of_link _ _ _ _ _ H IT) as (c' & IC' & NC). exists c'. split; [apply in_app_iff; left; exact IC'|exact NC].
    - apply A1 in IT. exists c0. split; [apply in_app_iff; right; left; reflexivity|exact IT]. }
  assert (IT : In t (union v0 v1)).
  { apply union_In. apply in_app_iff in IC. destruct IC as [IC | [<- | []]]; [left; apply A0; eapply link_of_case; eassumption|right; apply A1; exact NT]. }
  pose proof (union_NoDup v0 v1 ND) as NDU. apply in_split in IT. destruct IT as (u & v & UV). rewrite UV in NDU, EXP.
  assert (LT : lit_of P t = Some l) by (rewrite tok_lit; [exact TL|eapply next_found; exact NT]).
  assert (TI : token_ids P (union v0 v1) = token_ids P u ++ l :: token_ids P v).
  { unfold token_ids. rewrite UV, flat_map_app. cbn [flat_map]. rewrite LT. reflexivity. }
  assert (OTH : forall l', In l' (token_ids P u ++ token_ids P v) -> constant P l' /\ ~ matches P I l' (s_pos x)).
  { intros l' IL. assert (K : exists t', In t' (u ++ v) /\ lit_of P t' = Some l') by (apply in_app_iff in IL; destruct IL as [IL | IL]; apply token_ids_In in IL; destruct IL as (t' & IT & L); exists t'; (split; [apply in_app_iff; auto|exact L])).
    destruct K as (t' & IT & L). destruct (EXP t') as (c' & IC' & NC); [apply in_app_iff in IT; apply in_app_iff; cbn [In]; tauto|].
    destruct (OT c' t' l' IC' NC) as (C1 & M1); [rewrite <- tok_lit; [exact L|eapply next_found; exact NC]|]. split; [exact C1|]. apply M1. intros ->. apply NoDup_remove_2 in NDU. exact (NDU IT). }
  assert (NE : rest_at I None (s_pos x) <> []).
  { destruct CO as (w & KD & NW). destruct MA as (w' & KD' & M). rewrite KD in KD'. injection KD' as <-. intros Z. rewrite Z in M. rewrite firstn_nil in M. congruence. }
  destruct (at_eod_now I CLOSED x O) as (z & AE & OZ & SZ). pose proof SZ as (SP & SL & SLa & SLe & SE).
  destruct (look_finds_literal P I CLOSED (token_ids P u) l (token_ids P v) z OZ) as (y & w & KD & LO & OY & KY & LY & _).
  - congruence.
  - rewrite <- SLe, <- SP. exact LE.
  - exact CO.
  - rewrite <- SP. exact MA.
  - intros l' IL. rewrite <- SP. apply OTH. exact IL.
  - exists y. split; [|split; [exact OY|split; [eapply keeps_trans; [apply same_keeps; exact SZ|exact KY]|exact LY]]].
    unfold look. rewrite LX, PL. unfold get_look_ahead. rewrite AE. destruct (rest_at I None (s_pos x)) as [|b0 r0] eqn:RX; [congruence|].
    assert (NR : filter (is_rx P) (token_ids P (union v0 v1)) = []).
    { rewrite TI. assert (ALL : forall l', In l' (token_ids P u ++ l :: token_ids P v) -> constant P l').
      { intros l' IL. apply in_app_iff in IL. cbn [In] in IL. destruct IL as [IL | [<- | IL]]; [apply OTH; apply in_app_iff; auto|exact CO|apply OTH; apply in_app_iff; auto]. }
      clear - ALL. induction (token_ids P u ++ l :: token_ids P v) as [|l' ls IHl]; [reflexivity|]. cbn [filter]. destruct (ALL l' (or_introl eq_refl)) as (w' & KD' & _). unfold is_rx at 1. rewrite KD'. apply IHl. intros l2 IL. apply ALL. right. exact IL. }
    rewrite NR, TI. exact LO.
Qed.
End S.
