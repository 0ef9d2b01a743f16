(** Look-ahead finds the next token. *)
From Verif Require Import Base GrammarModel GrammarSpec GrammarProofs GrammarProofs2 GrammarProofs3 GrammarProps LahModel LahSpec LahSpec2 LahProofs LahProofs2 LahProofs3.

Section S.
Context {E : Type} (P : prog E) (I : input) (LO : leaf_ok P) (CL : i_closed I = true).
Context (all : grammar -> Prop) (main : grammar) (UN : units P all main) (J : nat) (EA : ends_at P I all main J).
Local Notation len := (length (i_data I)).
Implicit Types x y : st E.

Lemma sets_exact0 g s a b : compiled P g -> reached g s -> find g s = Some (PLook a b) -> exists v0 v1, p_lahs P s = (v0, v1) /\
  (forall z, In z v0 <-> next_token g s a z) /\ (forall z, In z v1 <-> next_token g s b z) /\ NoDup v0 /\ (forall z, In z v0 -> ~ In z v1).
Proof.
  intros CG RE F. destruct CG as (C & _ & m & n & g' & t & FZ & LS). destruct (finalize_inv _ _ _ _ _ C FZ) as (SF & SO & FI & CH).
  pose proof (sf_complete _ _ SF) as C'. pose proof (reached_path _ _ RE) as PT. assert (F' : find g' s = Some (PLook a b)) by (rewrite (sf_find _ _ SF s PT); exact F).
  assert (RA : In [a] (rhss_of g s)) by (unfold rhss_of; rewrite F; left; reflexivity).
  assert (RB : In [b] (rhss_of g s)) by (unfold rhss_of; rewrite F; right; left; reflexivity).
  assert (RR : rhss_of g' s = [[a]; [b]]) by (unfold rhss_of; rewrite F'; reflexivity).
  assert (NT : In s (g_nterms g')) by (apply (cp_nterm _ C'); eexists; split; [exact F'|reflexivity]).
  assert (RE' : reached g' s).
  { destruct RE as (u & v & D). exists u, v. rewrite (sf_root _ _ SF). apply (sf_derives _ _ SF _ _ (sf_root_path g)). exact D. }
  destruct (look_all g' t a s C' SO) as (v0 & L0). destruct (look_all g' t b s C' SO) as (v1 & L1). exists v0, v1.
  assert (A0 : forall z, In z v0 <-> next_token g s a z).
  { intros x. split; intros H.
    - apply (sf_next_back g g' SF _ _ _ RA). eapply look_out; eassumption.
    - apply (sf_next g g' SF _ _ _ RA) in H. apply next_token_iff in H; [|rewrite RR; left; reflexivity]. eapply look_in; eassumption. }
  assert (A1 : forall z, In z v1 <-> next_token g s b z).
  { intros x. split; intros H.
    - apply (sf_next_back g g' SF _ _ _ RB). eapply look_out; eassumption.
    - apply (sf_next g g' SF _ _ _ RB) in H. apply next_token_iff in H; [|rewrite RR; right; left; reflexivity]. eapply look_in; eassumption. }
  split; [rewrite (LS s a b F'); unfold look_ahead_sets; rewrite L0, L1; reflexivity|]. split; [exact A0|]. split; [exact A1|]. split.
  - unfold look_aheads in L0. destruct (forallb _ _); [|discriminate]. injection L0 as <-. destruct (is_nullable g' t a); repeat apply union_NoDup; constructor.
  - intros x X0 X1. apply A0 in X0. apply A1 in X1. exact (C50_look_ahead_decides g m n g' t C FZ s a b x x F X0 X1 eq_refl).
Qed.

Lemma sets_exact g s a b : all g -> reached g s -> find g s = Some (PLook a b) -> exists v0 v1, p_lahs P s = (v0, v1) /\
  (forall z, In z v0 <-> next_token g s a z) /\ (forall z, In z v1 <-> next_token g s b z) /\ NoDup v0 /\ (forall z, In z v0 -> ~ In z v1).
Proof. intros AG. apply sets_exact0. exact (un_compiled _ _ _ UN g AG). Qed.

(** What is still to come. *)
Definition here (r : list (option lit)) (i : nat) : Prop :=
  match r with [] => i = J | Some l :: _ => exists w, spelled P I None l i w | None :: _ => True end.
Definition pending (r : list (option lit)) x : Prop :=
  match s_lah x with
  | LNone => s_lahe x <= s_pos x
  | LTok l => exists r' w, r = Some l :: r' /\ p_inuse P l = true /\ p_kind P l = KBytes w /\ w <> [] /\ firstn (length w) (rest_at I None (s_pos x)) = w /\ s_lahe x = s_pos x + length w
  | LEod => r = []
  end.
Definition tail (g : grammar) (out : list (option lit)) : Prop := behind P all main g (hd_error out).
Definition state_ok x : Prop := ok I x /\ s_lim x = None.

(** Waiting on a closed input always ends. *)
Lemma wait_now n x : state_ok x -> exists y, wait_or_eod I n x = Some (Nat.leb n (length (whole I x)), y) /\ state_ok y /\ same x y.
Proof.
  intros (O & L). pose proof (retry_spec I (wait_f n) x (wait_stable n) (proj1 O)) as H.
  assert (F : wait_f n (whole I x) (fin I x) = Some (Nat.leb n (length (whole I x)))).
  { unfold wait_f, fin, ended_b. rewrite CL. cbn [orb]. destruct (Nat.leb n (length (whole I x))); reflexivity. }
  rewrite F in H. destruct H as (y & R & V & S1 & _). exists y. split; [exact R|]. split; [|exact S1].
  split; [apply (ok_same I x); [exact O|exact V|apply same_keeps; exact S1]|]. destruct S1 as (_ & E2 & _). congruence.
Qed.
Lemma whole_none x : s_lim x = None -> whole I x = rest_at I None (s_pos x).
Proof. intros L. unfold whole. rewrite L. reflexivity. Qed.
Lemma at_eod_now x : state_ok x -> exists y, at_eod I x = Some (match rest_at I None (s_pos x) with [] => true | _ => false end, y) /\ state_ok y /\ same x y.
Proof.
  intros O. destruct (wait_now 1 x O) as (y & W & OY & S1). exists y. split; [|auto]. unfold at_eod. rewrite W. rewrite whole_none by apply O.
  destruct (rest_at I None (s_pos x)); reflexivity.
Qed.
Lemma try_now w x : state_ok x -> exists y, try_literal I w x = Some (if bytes_eqb w (firstn (length w) (rest_at I None (s_pos x))) then length w else 0, y) /\ state_ok y /\ same x y.
Proof.
  intros O. destruct (wait_now (length w) x O) as (y & W & OY & S1). exists y. split; [|auto]. unfold try_literal. rewrite W. f_equal. f_equal.
  rewrite <- whole_none by apply O. destruct (Nat.leb_spec (length w) (length (whole I x))) as [L | L]; cbn [andb].
  - destruct (wait_inv I _ _ _ _ (proj1 O) W) as (_ & _ & T & _). assert (LA : length w <= length (avail I y)) by (apply T; reflexivity).
    rewrite starts_with_long by exact LA. rewrite avail_firstn by (try apply OY; exact LA). destruct (same_whole I x y S1) as (<- & _). reflexivity.
  - destruct (bytes_eqb _ _) eqn:B; [|reflexivity]. apply bytes_eqb_eq in B. exfalso. apply (f_equal (@length _)) in B. rewrite firstn_length in B. lia.
Qed.
Definition matches (l : lit) (i : nat) : Prop := exists w, p_kind P l = KBytes w /\ firstn (length w) (rest_at I None i) = w.
Definition constant (l : lit) : Prop := exists w, p_kind P l = KBytes w /\ w <> [].
Lemma bytes_eqb_refl w : bytes_eqb w w = true. Proof. unfold bytes_eqb. destruct (list_eq_dec Z.eq_dec w w); congruence. Qed.
Lemma bytes_eqb_false a b : a <> b -> bytes_eqb a b = false. Proof. unfold bytes_eqb. destruct (list_eq_dec Z.eq_dec a b); congruence. Qed.
Lemma miss_others ls : forall first x, state_ok x -> (forall l, In l ls -> constant l /\ ~ matches l (s_pos x)) ->
  exists y, (forall ls', look_others P I first (ls ++ ls') x = look_others P I (first && null ls) ls' y) /\ state_ok y /\ same x y.
Proof.
  induction ls as [|l ls IH]; intros first x O H.
  - exists x. split; [intros ls'; cbn [app null]; rewrite andb_true_r; reflexivity|]. split; [exact O|apply same_refl].
  - destruct (H l (or_introl eq_refl)) as ((w & KD & NW) & NM). destruct (try_now w x O) as (z & T & OZ & S1).
    assert (B : bytes_eqb w (firstn (length w) (rest_at I None (s_pos x))) = false) by (apply bytes_eqb_false; intros Q; apply NM; exists w; split; [exact KD|congruence]).
    rewrite B in T. destruct (IH false z OZ) as (y & HY & OY & S2).
    { intros l' IL. destruct (H l' (or_intror IL)) as (A1 & A2). split; [exact A1|]. destruct S1 as (<- & _). exact A2. }
    exists y. split; [|split; [exact OY|eapply same_trans; eassumption]]. intros ls'. cbn [app look_others null]. rewrite KD, T, andb_false_r. cbn [Nat.eqb negb andb].
    destruct first; apply HY.
Qed.
Lemma hit_others first l ls x : state_ok x -> s_lah x = LNone -> s_lahe x <= s_pos x -> constant l -> matches l (s_pos x) ->
  exists y w, p_kind P l = KBytes w /\ look_others P I first (l :: ls) x = look_others P I false ls y /\ state_ok y /\ keeps x y /\ s_lah y = LTok l /\ s_lahe y = s_pos y + length w.
Proof.
  intros O LN LE (w & KD & NW) (w' & KD' & M). rewrite KD in KD'. injection KD' as <-. destruct (try_now w x O) as (z & T & OZ & S1).
  rewrite M, bytes_eqb_refl in T. assert (NZ : Nat.eqb (length w) 0 = false) by (destruct w; [congruence|reflexivity]).
  assert (LW : s_pos z + length w <= len).
  { pose proof S1 as (E1 & _). rewrite <- E1. apply (f_equal (@length _)) in M. rewrite firstn_length in M. unfold rest_at in M. rewrite skipn_length in M.
    destruct w; [congruence|]. cbn [length] in *. lia. }
  exists (set_lah z (LTok l) (s_pos z + length w)), w. split; [exact KD|]. split; [|split; [split; [apply ok_set_lah; [apply OZ|exact LW]|apply OZ]|]].
  - cbn [look_others]. rewrite KD, T, NZ. cbn [negb andb]. destruct first; [reflexivity|]. destruct S1 as (E1 & _ & E3 & E4 & _).
    destruct (Nat.leb_spec (s_lahe z) (s_pos z + length w)) as [_ | Q]; [|exfalso; lia]. rewrite <- E3, LN. reflexivity.
  - split; [destruct (same_keeps _ _ S1) as (A & B & C); repeat split; assumption|]. split; reflexivity.
Qed.
Lemma look_finds_literal pre l post x : state_ok x -> s_lah x = LNone -> s_lahe x <= s_pos x -> constant l -> matches l (s_pos x) ->
  (forall l', In l' (pre ++ post) -> constant l' /\ ~ matches l' (s_pos x)) ->
  exists y w, p_kind P l = KBytes w /\ look_others P I true (pre ++ l :: post) x = Done y /\ state_ok y /\ keeps x y /\ s_lah y = LTok l /\ s_lahe y = s_pos y + length w.
Proof.
  intros O LN LE CN M H. destruct (miss_others pre true x O) as (x1 & H1 & O1 & S1); [intros l' IL; apply H; apply in_app_iff; left; exact IL|].
  pose proof S1 as (E1 & E2 & E3 & E4 & E5).
  destruct (hit_others (true && null pre) l post x1 O1) as (x2 & w & KD & H2 & O2 & K2 & T2 & L2); [congruence|congruence|exact CN|rewrite <- E1; exact M|].
  destruct (miss_others post false x2 O2) as (x3 & H3 & O3 & S3).
  { intros l' IL. destruct K2 as (Q & _). rewrite <- Q, <- E1. apply H. apply in_app_iff. right. exact IL. }
  exists x3, w. split; [exact KD|]. split; [|split; [exact O3|]].
  - rewrite H1, H2. specialize (H3 []). rewrite app_nil_r in H3. rewrite H3. reflexivity.
  - split; [eapply keeps_trans; [apply same_keeps; exact S1|]; eapply keeps_trans; [exact K2|apply same_keeps; exact S3]|]. destruct S3 as (F1 & _ & F3 & F4 & _). split; congruence.
Qed.

Lemma prefix_free_data v w d : firstn (length v) d = v -> firstn (length w) d = w -> prefix v w \/ prefix w v.
Proof.
  intros HV HW. destruct (Nat.le_ge_cases (length v) (length w)) as [L | L].
  - left. exists (skipn (length v) w). rewrite <- (firstn_skipn (length v) w) at 1. f_equal. rewrite <- HW, firstn_firstn, Nat.min_l by exact L. exact HV.
  - right. exists (skipn (length w) v). rewrite <- (firstn_skipn (length w) v) at 1. f_equal. rewrite <- HV, firstn_firstn, Nat.min_l by exact L. exact HW.
Qed.
Lemma reached_ctx g before s after : derives g [g_root g] (before ++ s :: after) -> reached g s. Proof. intros D. exists before, after. exact D. Qed.
Lemma lit_of_find g s p : all g -> find g s = Some p -> lit_of P s = token_id p.
Proof. intros AG F. destruct (un_compiled _ _ _ UN g AG) as (_ & PP & _). unfold lit_of. rewrite (PP s p F). reflexivity. Qed.

Lemma ends g s a b out : all g -> own P g s -> find g s = Some (PLook a b) -> can_be_last g s -> tail g out ->
  ends_with_data g s /\
  match out with
  | [] => J = len \/ list_look g s /\ forall t p l w, expected g s t -> find g t = Some p -> token_id p = Some l -> p_kind P l = KBytes w -> ~ prefix w (skipn J (i_data I))
  | o :: _ => list_look g s /\ exists l, o = Some l /\ apart P g s l
  end.
Proof.
  intros AG OW F CB T. destruct out as [|o out]; cbn [tail hd_error] in T.
  - apply (EA g s a b AG OW F CB T).
  - destruct (un_ends _ _ _ UN g s a b o AG OW F CB T) as (X & Y & Z). auto.
Qed.
Lemma list_shape g s a b : all g -> list_look g s -> find g s = Some (PLook a b) -> find g a = Some PEpsilon /\ (exists c, find g b = Some (PSeq [c; s])) /\ p_default P s = DNone.
Proof.
  intros AG (w & FW) F. destruct (pl_while _ _ (un_plain _ _ _ UN g AG) w s FW) as (ep & l2 & c & F1 & FE & F2 & _ & DN & _). rewrite F in F1. injection F1 as <- <-. eauto.
Qed.
Lemma matches_prefix l i w : matches l i -> p_kind P l = KBytes w -> prefix w (skipn i (i_data I)).
Proof. intros (w' & K & M) K'. rewrite K in K'. injection K' as <-. exists (skipn (length w') (skipn i (i_data I))). unfold rest_at in M. rewrite <- M at 1. symmetry. apply firstn_skipn. Qed.
(** At the end of a list at the end of a unit. *)
Lemma list_ends g s a b before after out x :
  all g -> find g s = Some (PLook a b) -> list_look g s -> derives g [g_root g] (before ++ s :: after) -> derives g after [] -> ends_with_data g s ->
  (forall t p l, expected g s t -> find g t = Some p -> token_id p = Some l -> ~ matches l (s_pos x)) ->
  match out with [] => True | o :: _ => exists l, o = Some l /\ apart P g s l end -> here out (s_pos x) -> state_ok x -> pending out x ->
  exists y, look P I s x = Done y /\ state_ok y /\ keeps x y /\ pending out y /\ (choose P s a b (s_lah y) = First \/ choose P s a b (s_lah y) = Neither).
Proof.
  intros AG F LL D DA EW NM AP HE O PE. destruct (list_shape g s a b AG LL F) as (FE & (c0 & FB) & DN).
  destruct (sets_exact g s a b AG (reached_ctx _ _ _ _ D) F) as (v0 & v1 & PL & X0 & X1 & ND & DJ).
  destruct (un_compiled _ _ _ UN g AG) as (C & PP & m & n & g' & t0 & FZ & _).
  assert (v0 = []). { destruct (EW a b F) as [(_ & NT & _) | (FE' & _)]; [|congruence]. destruct v0 as [|z v0]; [reflexivity|exfalso; apply (NT z), X0; left; reflexivity]. } subst v0.
  pose proof (un_lits _ _ _ UN g AG) as DL. assert (EX1 : forall z, In z v1 -> expected g s z) by (intros z IZ; exists a, b; split; [exact F|right; apply X1; exact IZ]).
  assert (NV : exists z, In z v1).
  { destruct (C50_acceptance_exact g m n _ C FZ s a b before after F D) as ((z & [Z | Z]) & _); [exfalso; apply X0 in Z; destruct Z|exists z; apply X1; exact Z]. }
  assert (N2 : null (token_ids P v1) = false).
  { destruct NV as (z & IZ). destruct (dl_lit _ _ DL s z (EX1 z IZ)) as (p & l & w & FP & TI & _). assert (IL : In l (token_ids P v1)).
    { unfold token_ids. apply in_flat_map. exists z. split; [exact IZ|]. rewrite (lit_of_find g z p AG FP), TI. left. reflexivity. }
    destruct (token_ids P v1); [destruct IL|reflexivity]. }
  assert (EP : is_epsilon P a = true) by (unfold is_epsilon; rewrite (PP a _ FE); reflexivity).
  assert (CN : choose P s a b LNone = Neither) by (unfold choose; rewrite PL, DN, EP; cbn [null andb negb token_ids flat_map]; rewrite N2; reflexivity).
  assert (CE : choose P s a b LEod = First) by (unfold choose; rewrite PL, EP; reflexivity).
  unfold look. unfold pending in PE. destruct (s_lah x) as [| |l'] eqn:LH.
  - rewrite PL. unfold get_look_ahead. destruct (at_eod_now x O) as (y & AE & OY & S1). rewrite AE. pose proof S1 as (E1 & E2 & E3 & E4 & E5).
    destruct (rest_at I None (s_pos x)) as [|d0 ds] eqn:RN.
    + exists (set_lah y LEod (s_lahe y)). split; [reflexivity|]. split; [split; [apply ok_set_lah; [apply OY|apply (iv_lahe _ _ (proj1 (proj1 OY)))]|apply OY]|].
      split; [apply same_keeps in S1; exact S1|]. split; [|left; exact CE]. unfold pending. cbn [s_lah set_lah]. destruct out as [|o out]; [reflexivity|exfalso]. destruct AP as (l & -> & w & KD & NW & _).
      cbn [here] in HE. destruct HE as (w0 & SP). inversion SP as [? ? ? ? Q M|? ? ? ? Q|? ? ? ? ? Q]; subst; rewrite KD in Q; [|discriminate|discriminate]. injection Q as ->. rewrite RN in M. destruct w0; [congruence|discriminate].
    + assert (U0 : union [] v1 = union [] v1) by reflexivity.
      assert (KX : forall l', In l' (token_ids P (union [] v1)) -> constant l' /\ ~ matches l' (s_pos y)).
      { intros l' IL. unfold token_ids in IL. apply in_flat_map in IL. destruct IL as (z & IZ & H). apply union_In in IZ. destruct IZ as [[] | IZ]. pose proof (EX1 z IZ) as EZ.
        destruct (dl_lit _ _ DL s z EZ) as (p & l & w & FP & TI & _ & KD & NW). rewrite (lit_of_find g z p AG FP), TI in H. destruct H as [<- | []].
        split; [exists w; auto|]. rewrite <- E1. apply (NM z p l EZ FP TI). }
      assert (FX : filter (is_rx P) (token_ids P (union [] v1)) = []).
      { destruct (filter _ _) as [|l1 ls1] eqn:FQ; [reflexivity|exfalso]. assert (IL : In l1 (filter (is_rx P) (token_ids P (union [] v1)))) by (rewrite FQ; left; reflexivity).
        apply filter_In in IL. destruct IL as (IL & RX). destruct (KX l1 IL) as ((w1 & K1 & _) & _). unfold is_rx in RX. rewrite K1 in RX. discriminate. }
      rewrite FX. destruct (miss_others (token_ids P (union [] v1)) true y OY KX) as (y' & HL & OY' & S2). specialize (HL []). rewrite app_nil_r in HL. rewrite HL. cbn [look_others].
      pose proof S2 as (G1 & G2 & G3 & G4 & G5). exists y'. split; [reflexivity|]. split; [exact OY'|]. split; [apply same_keeps; eapply same_trans; eassumption|].
      assert (LN : s_lah y' = LNone) by congruence. split; [unfold pending; rewrite LN; rewrite <- G1, <- G4, <- E1, <- E4; exact PE|]. right. rewrite LN. exact CN.
  - exists x. rewrite LH. split; [reflexivity|]. split; [exact O|]. split; [apply keeps_refl|]. split; [unfold pending; rewrite LH; exact PE|left; exact CE].
  - exists x. rewrite LH. split; [reflexivity|]. split; [exact O|]. split; [apply keeps_refl|]. split; [unfold pending; rewrite LH; exact PE|]. right.
    destruct PE as (r' & w & -> & _). destruct AP as (l & Q & AP). injection Q as <-. destruct AP as (w0 & K0 & N0 & AP).
    unfold choose. rewrite PL, DN, EP. cbn [null andb negb token_ids flat_map mem existsb]. replace (mem l' (token_ids P v1)) with false; [fold (token_ids P v1); rewrite N2; reflexivity|].
    symmetry. destruct (mem l' (token_ids P v1)) eqn:Q; [exfalso|reflexivity]. apply mem_In in Q. unfold token_ids in Q. apply in_flat_map in Q. destruct Q as (z & IZ & H).
    destruct (dl_lit _ _ DL s z (EX1 z IZ)) as (p & l & w1 & FP & TI & _ & KD & NW). rewrite (lit_of_find g z p AG FP), TI in H. destruct H as [-> | []]. rewrite K0 in KD. injection KD as <-.
    destruct (AP z p l' w0 (EX1 z IZ) FP TI K0) as (X & _). apply X. exists []. rewrite app_nil_r. reflexivity.
Qed.

(** At a look-ahead production: the alternative whose trace comes next is chosen. *)
Lemma look_finds g s a b c before after tr tr' out x :
  all g -> own P g s -> find g s = Some (PLook a b) -> (c = a \/ c = b) -> derives g [g_root g] (before ++ s :: after) -> derives g [c] tr -> derives g after tr' -> Forall (token g) (tr ++ tr') ->
  tail g out -> here (map (lit_of P) (tr ++ tr') ++ out) (s_pos x) -> state_ok x -> pending (map (lit_of P) (tr ++ tr') ++ out) x ->
  exists y, look P I s x = Done y /\ state_ok y /\ keeps x y /\ pending (map (lit_of P) (tr ++ tr') ++ out) y /\
    ((choose P s a b (s_lah y) = First /\ c = a) \/ (choose P s a b (s_lah y) = Second /\ c = b) \/ (choose P s a b (s_lah y) = Neither /\ c = a /\ list_look g s)).
Proof.
  intros AG OW F CC D DC DA FT TL HE O PE. set (r := map (lit_of P) (tr ++ tr') ++ out) in *.
  destruct (sets_exact g s a b AG (reached_ctx _ _ _ _ D) F) as (v0 & v1 & PL & X0 & X1 & ND & DJ).
  (* which case is chosen *)
  assert (CT : forall t l more, tr ++ tr' = t :: more -> lit_of P t = Some l ->
    (choose P s a b (LTok l) = First /\ c = a) \/ (choose P s a b (LTok l) = Second /\ c = b) \/ (choose P s a b (LTok l) = Neither /\ c = a /\ list_look g s)).
  { intros t l more EQ LT. assert (TK : token g t) by (rewrite EQ in FT; inversion FT; assumption).
    assert (NT : next_token g s c t).
    { exists before, after. split; [exact D|]. split; [exact TK|]. exists more. change (c :: after) with ([c] ++ after). rewrite <- EQ.
      eapply derives_trans; [apply (derives_ctx g [] after _ _ DC)|]. cbn [app]. pose proof (derives_ctx g tr [] _ _ DA) as Q. rewrite !app_nil_r in Q. exact Q. }
    assert (UNQ : forall t', expected g s t' -> lit_of P t' = Some l -> t' = t).
    { intros t' EX LT'. destruct (Nat.eq_dec t' t) as [Q | Q]; [exact Q|exfalso]. assert (EX0 : expected g s t) by (exists a, b; split; [exact F|]; destruct CC as [-> | ->]; auto).
      destruct (dl_lit _ _ (un_lits _ _ _ UN g AG) s t EX0) as (p & l0 & w & F0 & T0 & _ & K0 & _). destruct (dl_lit _ _ (un_lits _ _ _ UN g AG) s t' EX) as (p1 & l1 & w1 & F1 & T1 & _ & K1 & _).
      rewrite (lit_of_find g t p AG F0), T0 in LT. injection LT as ->. rewrite (lit_of_find g t' p1 AG F1), T1 in LT'. injection LT' as ->. rewrite K0 in K1. injection K1 as <-.
      apply (dl_free _ _ (un_lits _ _ _ UN g AG) s t' t p1 p l l w w EX EX0 Q F1 T1 K0 F0 T0 K0). exists []. rewrite app_nil_r. reflexivity. }
    assert (MI : forall v, mem l (token_ids P v) = true <-> exists t', In t' v /\ lit_of P t' = Some l).
    { intros v. rewrite mem_In. unfold token_ids. rewrite in_flat_map. split; intros (t' & IT & H); exists t'; split; try exact IT.
      - destruct (lit_of P t'); [destruct H as [-> | []]; reflexivity|destruct H].
      - rewrite H. left. reflexivity. }
    unfold choose. rewrite PL. destruct CC as [-> | ->].
    - left. split; [|reflexivity]. replace (mem l (token_ids P v0)) with true; [reflexivity|]. symmetry. apply MI. exists t. split; [apply X0; exact NT|exact LT].
    - right. left. split; [|reflexivity]. replace (mem l (token_ids P v0)) with false; [replace (mem l (token_ids P v1)) with true; [reflexivity|]|].
      + symmetry. apply MI. exists t. split; [apply X1; exact NT|exact LT].
      + symmetry. destruct (mem l (token_ids P v0)) eqn:Q; [exfalso|reflexivity]. apply MI in Q. destruct Q as (t' & I1 & L1).
        assert (t' = t) by (apply UNQ; [exists a, b; split; [exact F|left; apply X0; exact I1]|exact L1]). subst t'. apply (DJ t I1). apply X1. exact NT. }
  assert (CE : tr ++ tr' = [] -> (choose P s a b LEod = First /\ c = a) \/ (choose P s a b LEod = Second /\ c = b)).
  { intros EQ. apply app_eq_nil in EQ. destruct EQ as (-> & ->). destruct (ends g s a b out AG OW F) as (EW & _); [exists before, after; auto|exact TL|].
    assert (EP : forall z, is_epsilon P z = match find g z with Some PEpsilon => true | _ => false end \/ find g z = None).
    { intros z. destruct (un_compiled _ _ _ UN g AG) as (_ & PP & _). destruct (find g z) eqn:FZ; [left|right; reflexivity]. unfold is_epsilon. rewrite (PP z p FZ). reflexivity. }
    assert (FN : forall z, z = a \/ z = b -> find g z <> None).
    { intros z HZ. destruct (un_compiled _ _ _ UN g AG) as (C & _). destruct HZ as [-> | ->].
      - eapply (cp_closed g C s [a]); [unfold rhss_of; rewrite F; left; reflexivity|left; reflexivity].
      - eapply (cp_closed g C s [b]); [unfold rhss_of; rewrite F; right; left; reflexivity|left; reflexivity]. }
    destruct (EW a b F) as [(FE & NT & NE) | (FE & NT & NE)].
    - left. assert (c = a) by (destruct CC as [Q | ->]; [exact Q|exfalso; apply NE; exact DC]). split; [|assumption]. unfold choose. rewrite PL.
      assert (v0 = []) by (destruct v0 as [|z v0]; [reflexivity|exfalso; apply (NT z), X0; left; reflexivity]). subst v0.
      destruct (EP a) as [-> | Q]; [|exfalso; apply (FN a); auto]. rewrite FE. reflexivity.
    - right. assert (c = b) by (destruct CC as [-> | Q]; [exfalso; apply NE; exact DC|exact Q]). split; [|assumption]. unfold choose. rewrite PL.
      assert (v1 = []) by (destruct v1 as [|z v1]; [reflexivity|exfalso; apply (NT z), X1; left; reflexivity]). subst v1.
      assert (EPA : is_epsilon P a = false).
      { destruct (EP a) as [-> | Q]; [|exfalso; apply (FN a); auto]. destruct (find g a) as [[]|] eqn:FA; try reflexivity. exfalso. apply NE. apply one_step. apply (step_eps g [] a [] FA). }
      rewrite EPA, andb_false_r. destruct (EP b) as [-> | Q]; [|exfalso; apply (FN b); auto]. rewrite FE. reflexivity. }
  destruct (tr ++ tr') as [|t more] eqn:EQ.
  - (* nothing more *)
    specialize (CE eq_refl). assert (CBL : can_be_last g s).
    { apply app_eq_nil in EQ. destruct EQ as (-> & ->). exists before, after. auto. }
    destruct (ends g s a b out AG OW F CBL TL) as (EW & EN). assert (R0 : r = out) by reflexivity. rewrite R0 in *.
    assert (TT : tr = [] /\ tr' = []) by (apply app_eq_nil in EQ; exact EQ). destruct TT as (-> & ->).
    assert (LIST : list_look g s -> (forall t p l, expected g s t -> find g t = Some p -> token_id p = Some l -> ~ matches l (s_pos x)) ->
      match out with [] => True | o :: _ => exists l, o = Some l /\ apart P g s l end ->
      exists y, look P I s x = Done y /\ state_ok y /\ keeps x y /\ pending out y /\
        ((choose P s a b (s_lah y) = First /\ c = a) \/ (choose P s a b (s_lah y) = Second /\ c = b) \/ (choose P s a b (s_lah y) = Neither /\ c = a /\ list_look g s))).
    { intros LL NM AP. destruct (list_ends g s a b before after out x AG F LL D DA EW NM AP HE O PE) as (y & A1 & A2 & A3 & A4 & A5). exists y.
      assert (CA : c = a). { destruct CC as [Q | ->]; [exact Q|exfalso]. destruct (EW a b F) as [(_ & _ & NE) | (FE' & _)]; [exact (NE DC)|]. destruct (list_shape g s a b AG LL F) as (_ & (c0 & FB) & _). congruence. }
      repeat (split; [assumption|]). destruct A5 as [A5 | A5]; auto. }
    destruct out as [|o out].
    2:{ destruct EN as (LL & l & -> & AP). apply LIST; [exact LL| |exists l; auto]. destruct AP as (w & KD & NW & AP). cbn [here] in HE. destruct HE as (w0 & SP).
      assert (M : firstn (length w) (rest_at I None (s_pos x)) = w).
      { inversion SP as [? ? ? ? Q M|? ? ? ? Q|? ? ? ? ? Q]; subst; rewrite KD in Q; [|discriminate|discriminate]. injection Q as <-. exact M. }
      intros t p l' EX FP TI (w1 & K1 & M1). destruct (AP t p l' w1 EX FP TI K1) as (N1 & N2). destruct (prefix_free_data _ _ _ M M1) as [Q | Q]; auto. }
    cbn [here] in HE. destruct EN as [EN | (LL & EN)].
    2:{ apply LIST; [exact LL| |exact Logic.I]. intros t p l EX FP TI M. destruct (dl_lit _ _ (un_lits _ _ _ UN g AG) s t EX) as (p1 & l1 & w1 & F1 & T1 & _ & K1 & _).
      rewrite FP in F1. injection F1 as <-. rewrite TI in T1. injection T1 as <-. apply (EN t p l w1 EX FP TI K1). rewrite <- HE. eapply matches_prefix; eassumption. }
    assert (CE' : (choose P s a b LEod = First /\ c = a) \/ (choose P s a b LEod = Second /\ c = b) \/ (choose P s a b LEod = Neither /\ c = a /\ list_look g s)) by (destruct CE as [CE | CE]; auto).
    clear CE. rename CE' into CE. rewrite EN in HE.
    unfold look. unfold pending in PE. destruct (s_lah x) as [| |l] eqn:LH; [|exists x|destruct PE as (r' & w & Q & _); discriminate].
    + rewrite PL. unfold get_look_ahead. destruct (at_eod_now x O) as (y & AE & OY & S1).
      assert (RN : rest_at I None (s_pos x) = []) by (unfold rest_at; rewrite HE; apply skipn_all). rewrite RN in AE. rewrite AE.
      exists (set_lah y LEod (s_lahe y)). split; [reflexivity|]. split; [split; [apply ok_set_lah; [apply OY|apply (iv_lahe _ _ (proj1 (proj1 OY)))]|apply OY]|].
      split; [apply same_keeps in S1; exact S1|]. split; [reflexivity|exact CE].
    + rewrite LH. split; [reflexivity|]. split; [exact O|]. split; [apply keeps_refl|]. split; [unfold pending; rewrite LH; reflexivity|exact CE].
  - (* a token *)
    assert (TK : token g t) by (inversion FT; assumption).
    assert (NT : next_token g s c t).
    { exists before, after. split; [exact D|]. split; [exact TK|]. exists more. change (c :: after) with ([c] ++ after). rewrite <- EQ.
      eapply derives_trans; [apply (derives_ctx g [] after _ _ DC)|]. cbn [app]. pose proof (derives_ctx g tr [] _ _ DA) as Q. rewrite !app_nil_r in Q. exact Q. }
    assert (EX0 : expected g s t) by (exists a, b; split; [exact F|]; destruct CC as [-> | ->]; auto).
    pose proof (un_lits _ _ _ UN g AG) as DL. destruct (dl_lit _ _ DL s t EX0) as (p & l & w & FP & TI & IU & KD & NW).
    assert (LT : lit_of P t = Some l) by (rewrite (lit_of_find g t p AG FP); exact TI). specialize (CT t l more eq_refl LT).
    assert (R0 : r = Some l :: map (lit_of P) more ++ out) by (unfold r; cbn [map app]; rewrite LT; reflexivity). rewrite R0 in *. cbn [here] in HE.
    destruct HE as (w0 & SP). assert (M : firstn (length w) (rest_at I None (s_pos x)) = w).
    { inversion SP as [? ? ? ? Q M|? ? ? ? Q|? ? ? ? ? Q]; subst; rewrite KD in Q; [|discriminate|discriminate]. injection Q as <-. exact M. }
    unfold look. unfold pending in PE. destruct (s_lah x) as [| |l'] eqn:LH; [|discriminate|].
    + rewrite PL. unfold get_look_ahead. destruct (at_eod_now x O) as (y & AE & OY & S1). rewrite AE.
      destruct (rest_at I None (s_pos x)) as [|d0 ds] eqn:RN; [exfalso; destruct w; [congruence|discriminate]|]. rewrite <- RN in M. clear AE.
      assert (UX : forall z, In z (union v0 v1) -> expected g s z).
      { intros z HZ. exists a, b. split; [exact F|]. apply union_In in HZ. destruct HZ as [HZ | HZ]; [left; apply X0; exact HZ|right; apply X1; exact HZ]. }
      assert (KX : forall l', In l' (token_ids P (union v0 v1)) -> exists z, In z (union v0 v1) /\ lit_of P z = Some l').
      { intros l' IL. unfold token_ids in IL. apply in_flat_map in IL. destruct IL as (z & IZ & H). exists z. split; [exact IZ|]. destruct (lit_of P z); [destruct H as [-> | []]; reflexivity|destruct H]. }
      assert (KC : forall z l', expected g s z -> lit_of P z = Some l' -> constant l').
      { intros z l' EZ LZ. destruct (dl_lit _ _ DL s z EZ) as (p1 & l1 & w1 & F1 & T1 & _ & K1 & N1). rewrite (lit_of_find g z p1 AG F1), T1 in LZ. injection LZ as <-. exists w1. auto. }
      assert (FX : filter (is_rx P) (token_ids P (union v0 v1)) = []).
      { destruct (filter _ _) as [|l' ls'] eqn:FQ; [reflexivity|exfalso]. assert (IL : In l' (filter (is_rx P) (token_ids P (union v0 v1)))) by (rewrite FQ; left; reflexivity).
        apply filter_In in IL. destruct IL as (IL & RX). destruct (KX l' IL) as (z & IZ & LZ). destruct (KC z l' (UX z IZ) LZ) as (w1 & K1 & _). unfold is_rx in RX. rewrite K1 in RX. discriminate. }
      rewrite FX. assert (IT : In t (union v0 v1)) by (apply union_In; destruct CC as [-> | ->]; [left; apply X0; exact NT|right; apply X1; exact NT]).
      pose proof (union_NoDup v0 v1 ND) as NU. apply in_split in IT. destruct IT as (u1 & u2 & EU). 
      assert (TU : token_ids P (union v0 v1) = token_ids P u1 ++ l :: token_ids P u2).
      { rewrite EU. unfold token_ids. rewrite flat_map_app. cbn [flat_map]. rewrite LT. reflexivity. }
      rewrite TU. pose proof S1 as (E1 & E2 & E3 & E4 & E5). destruct (look_finds_literal (token_ids P u1) l (token_ids P u2) y OY) as (y' & w' & K' & HL & OY' & KY & TY & LY).
      * congruence.
      * congruence.
      * exists w. auto.
      * exists w. split; [exact KD|]. rewrite <- E1. exact M.
      * intros l' IL. assert (IL' : exists z, In z (u1 ++ u2) /\ lit_of P z = Some l').
        { apply in_app_iff in IL. destruct IL as [IL | IL]; unfold token_ids in IL; apply in_flat_map in IL; destruct IL as (z & IZ & H); exists z; (split; [apply in_app_iff; auto|]);
            (destruct (lit_of P z); [destruct H as [-> | []]; reflexivity|destruct H]). }
        destruct IL' as (z & IZ & LZ). assert (IU0 : In z (union v0 v1)) by (rewrite EU; apply in_app_iff; apply in_app_iff in IZ; destruct IZ; [left; assumption|right; right; assumption]).
        assert (ZT : z <> t). { intros ->. rewrite EU in NU. apply NoDup_remove_2 in NU. apply NU. exact IZ. }
        split; [apply (KC z l' (UX z IU0) LZ)|]. intros (w1 & K1 & M1). rewrite <- E1 in M1.
        destruct (dl_lit _ _ DL s z (UX z IU0)) as (p2 & l2 & w2 & F2 & T2 & _ & K2 & _). rewrite (lit_of_find g z p2 AG F2), T2 in LZ. injection LZ as ->. rewrite K1 in K2. injection K2 as <-.
        destruct (prefix_free_data _ _ _ M M1) as [Q | Q].
        -- apply (dl_free _ _ DL s t z p p2 l l' w w1 EX0 (UX z IU0) (fun H => ZT (eq_sym H)) FP TI KD F2 T2 K1 Q).
        -- apply (dl_free _ _ DL s z t p2 p l' l w1 w (UX z IU0) EX0 ZT F2 T2 K1 FP TI KD Q).
      * rewrite KD in K'. injection K' as <-. exists y'. split; [exact HL|]. split; [exact OY'|]. split; [eapply keeps_trans; [apply same_keeps; exact S1|exact KY]|].
        split; [|rewrite TY; exact CT]. unfold pending. rewrite TY. exists (map (lit_of P) more ++ out), w. split; [reflexivity|]. split; [exact IU|]. split; [exact KD|]. split; [exact NW|].
        split; [|exact LY]. destruct KY as (KY & _). rewrite <- KY, <- E1. exact M.
    + destruct PE as (r' & w1 & Q & IU1 & K1 & NW1 & M1 & LE). injection Q as <- <-. exists x. split; [reflexivity|]. split; [exact O|]. split; [apply keeps_refl|]. split.
      * unfold pending. rewrite LH. exists (map (lit_of P) more ++ out), w1. auto 7.
      * rewrite LH. exact CT.
Qed.
End S.
