(** The parser finds what the unit's declaration says about the input. *)
From Verif Require Import Base GrammarModel GrammarSpec GrammarProofs GrammarProofs2 GrammarProofs3 GrammarProps LahModel LahSpec LahSpec2 LahProofs LahProofs2 LahProofs3 LahProofs4.

Scheme parsed_mut := Minimality for parsed Sort Prop
  with body_mut := Minimality for body Sort Prop
  with all_mut := Minimality for parsed_all Sort Prop
  with items_mut := Minimality for items Sort Prop.
Combined Scheme parsed_all_ind from parsed_mut, body_mut, all_mut, items_mut.

Section S.
Context {E : Type} (P : prog E) (I : input) (LO : leaf_ok P) (CL : i_closed I = true).
Context (all : grammar -> Prop) (main : grammar) (UN : units P all main) (J : nat) (EA : ends_at P I all main J).
Local Notation len := (length (i_data I)).
Implicit Types x y : st E.
Local Notation here := (here P I J).
Local Notation pending := (@pending E P I).
Local Notation state_ok := (@state_ok E I).
Local Notation tail := (tail P all main).
Local Notation toks := (map (lit_of P)).

(** [F], with enough fuel, reads in any context the tokens that [l] stands for, from [i] to [j]. *)
Definition good (g : grammar) (l : list sym) (e : E) (i : nat) (e' : E) (j : nat) (F : nat -> nat -> st E -> result E) : Prop :=
  exists tr, derives g l tr /\ Forall (token g) tr /\ (forall r, here r j -> here (toks tr ++ r) i) /\
    forall before after tr' out x, derives g [g_root g] (before ++ l ++ after) -> derives g after tr' -> Forall (token g) tr' -> tail g out -> here (toks tr' ++ out) j ->
      state_ok x -> s_pos x = i -> s_env x = e -> pending (toks (tr ++ tr') ++ out) x ->
      exists M y, (forall m m2, M <= m -> M <= m2 -> F m m2 x = Done y) /\ state_ok y /\ s_pos y = j /\ s_env y = e' /\ pending (toks tr' ++ out) y.

Lemma good_later g l e i e' j F F' : (forall m m2 x, s_env x = e -> F' (S m) (S m2) x = F m m2 x) -> good g l e i e' j F -> good g l e i e' j F'.
Proof.
  intros H (tr & D & FT & HE & R). exists tr. split; [exact D|]. split; [exact FT|]. split; [exact HE|]. intros before after tr' out x D1 D2 F2 T H1 O X1 X2 PE.
  destruct (R before after tr' out x D1 D2 F2 T H1 O X1 X2 PE) as (M & y & RY & Y). exists (S M), y. split; [|exact Y]. intros m m2 L L2.
  destruct m as [|m]; [lia|]. destruct m2 as [|m2]; [lia|]. rewrite H by exact X2. apply RY; lia.
Qed.
Lemma good_same g l e i e' j F F' : (forall m m2 x, s_env x = e -> F' m m2 x = F m m2 x) -> good g l e i e' j F -> good g l e i e' j F'.
Proof.
  intros H (tr & D & FT & HE & R). exists tr. split; [exact D|]. split; [exact FT|]. split; [exact HE|]. intros before after tr' out x D1 D2 F2 T H1 O X1 X2 PE.
  destruct (R before after tr' out x D1 D2 F2 T H1 O X1 X2 PE) as (M & y & RY & Y). exists M, y. split; [|exact Y]. intros m m2 L L2. rewrite H by exact X2. apply RY; lia.
Qed.
Lemma good_expand g s rhs e i e' j F : In rhs (rhss_of g s) -> good g rhs e i e' j F -> good g [s] e i e' j F.
Proof.
  intros IN (tr & D & FT & HE & R). exists tr. split; [eapply derives_trans; [apply derives_one; exact IN|exact D]|]. split; [exact FT|]. split; [exact HE|].
  intros before after tr' out x D1. apply (R before after). cbn [app] in D1. apply derives_expand with (s := s); assumption.
Qed.
Lemma good_nil g e i F : (forall m m2 x, F m m2 x = Done x) -> good g [] e i e i F.
Proof.
  intros H. exists []. split; [constructor|]. split; [constructor|]. split; [auto|]. intros before after tr' out x _ _ _ _ _ O X1 X2 PE. exists 0, x. split; [intros; apply H|]. auto.
Qed.
Lemma pending_same r x y : same x y -> pending r x -> pending r y.
Proof. intros (A & B & C & D & F). unfold LahProofs4.pending. rewrite <- A, <- C, <- D. auto. Qed.
Lemma same_env_pos x y : same x y -> s_pos y = s_pos x /\ s_env y = s_env x. Proof. intros (A & _ & _ & _ & B). auto. Qed.

Lemma good_cons g s l e i e1 j1 e' j (F : nat -> nat -> sym -> st E -> result E) :
  good g [s] e i e1 j1 (fun m m2 => F m m2 s) -> good g l e1 j1 e' j (fun m m2 => seq (F m m2) l) -> good g (s :: l) e i e' j (fun m m2 => seq (F m m2) (s :: l)).
Proof.
  intros (tr1 & D1 & F1 & H1 & R1) (tr2 & D2 & F2 & H2 & R2). exists (tr1 ++ tr2). split; [|split; [|split]].
  - change (s :: l) with ([s] ++ l). eapply derives_trans; [apply (derives_ctx g [] l _ _ D1)|]. cbn [app]. pose proof (derives_ctx g tr1 [] _ _ D2) as Q. rewrite !app_nil_r in Q. exact Q.
  - apply Forall_app. auto.
  - intros r HR. rewrite map_app, <- app_assoc. apply H1. apply H2. exact HR.
  - intros before after tr' out x DR DA FA TL HR O X1 X2 PE.
    assert (DLA : derives g (l ++ after) (tr2 ++ tr')).
    { eapply derives_trans; [apply (derives_ctx g [] after _ _ D2)|]. cbn [app]. pose proof (derives_ctx g tr2 [] _ _ DA) as Q. rewrite !app_nil_r in Q. exact Q. }
    destruct (R1 before (l ++ after) (tr2 ++ tr') out x) as (M1 & y1 & Q1 & O1 & P1 & E1 & PE1); try assumption.
    + apply Forall_app. auto.
    + rewrite map_app, <- app_assoc. apply H2. exact HR.
    + rewrite app_assoc. exact PE.
    + destruct (R2 (before ++ [s]) after tr' out y1) as (M2 & y2 & Q2 & O2 & P2 & E2 & PE2); try assumption.
      * rewrite <- app_assoc. exact DR.
      * exists (Nat.max M1 M2), y2. split; [|auto]. intros m m2 L L2. cbn [seq]. rewrite Q1 by lia. cbn [andthen]. apply Q2; lia.
Qed.

Lemma find_prod g s p : all g -> find g s = Some p -> p_prod P s = Some p.
Proof. intros AG F. destruct (un_compiled _ _ _ UN g AG) as (_ & PP & _). apply PP. exact F. Qed.
Lemma child_found0 g s rhs c : all g -> In rhs (rhss_of g s) -> In c rhs -> find g c <> None.
Proof. intros AG R C. destruct (un_compiled _ _ _ UN g AG) as (CC & _). eapply cp_closed; eassumption. Qed.
Lemma child_found g s p rhs c : all g -> ~ inner g s -> own P g s -> p_call P s = None -> find g s = Some p -> (forall l1, p <> PWhile l1) -> In rhs (rhss_of g s) -> In c rhs -> find g c <> None /\ ~ inner g c /\ own P g c.
Proof.
  intros AG NI OW NC F NW R C. split; [eapply child_found0; eassumption|]. apply alternative_iff in R. split; [|eapply own_child; eassumption]. intros IC.
  destruct (pl_inner _ _ (un_plain _ _ _ UN g AG) s rhs c R C IC) as [Q | (l1 & Q)]; [exact (NI Q)|]. rewrite F in Q. injection Q as ->. exact (NW l1 eq_refl).
Qed.

Lemma spelled_len l i w : spelled P I None l i w -> i <= len -> i + length w <= len.
Proof.
  assert (K : forall w, firstn (length w) (rest_at I None i) = w -> i <= len -> i + length w <= len).
  { clear w. intros w M L. apply (f_equal (@length _)) in M. rewrite firstn_length in M. unfold rest_at in M. rewrite skipn_length in M. lia. }
  intros S0. inversion S0; subst; intros L; [apply K; assumption|apply K; assumption|]. rewrite firstn_length. unfold rest_at. rewrite skipn_length. lia.
Qed.
Lemma literal_runs s l w x e' r : state_ok x -> spelled P I None l (s_pos x) w -> p_field P s w (s_env x) = Some e' -> pending (Some l :: r) x ->
  exists y, literal P I s l x = Done y /\ state_ok y /\ s_pos y = s_pos x + length w /\ s_env y = e' /\ pending r y.
Proof.
  intros O SP FI PE. pose proof (spelled_len _ _ _ SP (iv_pos _ _ (proj1 (proj1 O)))) as LW. unfold LahProofs4.pending in PE. unfold literal.
  assert (FIN : forall z, same x z -> state_ok z -> s_lah x = LNone -> exists y, field P s w (set_pos z (s_pos z + length w)) = Done y /\ state_ok y /\ s_pos y = s_pos x + length w /\ s_env y = e' /\ pending r y).
  { intros z S1 OZ LN. pose proof S1 as (E1 & E2 & E3 & E4 & E5). exists (set_env (set_pos z (s_pos z + length w)) e'). unfold field. cbn [s_env set_pos]. rewrite <- E5, FI. split; [reflexivity|].
    split; [split; [apply ok_set_env, ok_set_pos; [apply OZ|]|apply OZ]|].
    - rewrite (proj2 OZ). cbn. rewrite <- E1. exact LW.
    - split; [cbn; congruence|]. split; [reflexivity|]. unfold LahProofs4.pending. cbn [s_lah set_env set_pos s_lahe s_pos]. rewrite <- E3, LN in *. rewrite <- E4, <- E1. lia. }
  destruct (s_lah x) as [| |t] eqn:LH; [|discriminate|].
  - assert (N : exists y, match p_kind P l with
      | KBytes w0 | KInt w0 =>
          match wait_or_eod I (length w0) x with
          | Some (o, x0) => if o && starts_with w0 (avail I x0) then field P s w0 (set_pos x0 (s_pos x0 + length w0)) else Fail
          | None => Suspended
          end
      | KRegexp =>
          match retry I (fun av fin => match p_rx P [l] av fin with RWait => if fin then Some RWait else None | r0 => Some r0 end) x with
          | Some (RWait, x0) => NoFuel
          | Some (RNone, x0) => Fail
          | Some (RTok _ n, x0) => field P s (firstn n (avail I x0)) (set_pos x0 (s_pos x0 + n))
          | None => Suspended
          end
      end = Done y /\ state_ok y /\ s_pos y = s_pos x + length w /\ s_env y = e' /\ pending r y).
    { assert (K : firstn (length w) (rest_at I None (s_pos x)) = w -> exists y, match wait_or_eod I (length w) x with
          | Some (o, x0) => if o && starts_with w (avail I x0) then field P s w (set_pos x0 (s_pos x0 + length w)) else Fail
          | None => Suspended
          end = Done y /\ state_ok y /\ s_pos y = s_pos x + length w /\ s_env y = e' /\ pending r y).
      { intros M. destruct (wait_now I CL (length w) x O) as (z & W & OZ & S1). rewrite W. rewrite whole_none in * by apply O.
        assert (LL : length w <= length (rest_at I None (s_pos x))) by (apply (f_equal (@length _)) in M; rewrite firstn_length in M; lia).
        apply Nat.leb_le in LL. rewrite LL in W |- *. destruct (wait_inv I _ _ _ _ (proj1 O) W) as (_ & _ & T & _). specialize (T eq_refl).
        rewrite starts_with_long by exact T. rewrite avail_firstn by (try apply OZ; exact T). destruct (same_whole I x z S1) as (<- & _). rewrite whole_none by apply O. rewrite M, bytes_eqb_refl. cbn [andb].
        apply FIN; [exact S1|exact OZ|reflexivity]. }
      inversion SP as [lim0 l0 i0 w0 KD M|lim0 l0 i0 w0 KD M|lim0 l0 i0 t n KD RX]; subst; rewrite KD; [apply K; exact M|apply K; exact M|]. clear K.
      pose proof (retry_spec I _ x (rx_stable P LO [l]) (proj1 (proj1 O))) as RS. rewrite whole_none in RS by apply O. unfold fin in RS. rewrite (proj2 O), RX in RS.
      destruct RS as (z & RZ & V & S1 & FZ). rewrite RZ. assert (OZ : state_ok z).
      { split; [apply (ok_same I x); [apply O|exact V|apply same_keeps; exact S1]|]. destruct S1 as (_ & Q & _). rewrite <- Q. apply O. }
      assert (FZ' : p_rx P [l] (avail I z) (view_complete z) = RTok t n) by (destruct (p_rx P [l] (avail I z) (view_complete z)); [destruct (view_complete z); discriminate|discriminate|congruence]).
      pose proof (lo_rx_len _ LO _ _ _ _ _ FZ') as L1. pose proof (lo_rx_len _ LO _ _ _ _ _ RX) as L2.
      rewrite avail_firstn by assumption. destruct (same_whole I x z S1) as (<- & _). rewrite whole_none by apply O.
      replace (s_pos z + n) with (s_pos z + length (firstn n (rest_at I None (s_pos x)))) by (rewrite firstn_length; lia). apply FIN; [exact S1|exact OZ|reflexivity]. }
    destruct (p_inuse P l); exact N.
  - destruct PE as (r' & w1 & Q & IU & KD & NW & M & LE). injection Q as <- <-. rewrite IU, Nat.eqb_refl. cbn [negb]. rewrite KD.
    assert (WW : w = w1) by (inversion SP as [? ? ? ? Q ?|? ? ? ? Q|? ? ? ? ? Q]; subst; rewrite KD in Q; congruence). subst w1.
    assert (BW : between I (s_pos x) (s_lahe x) = w) by (unfold between; rewrite LE; replace (s_pos x + length w - s_pos x) with (length w) by lia; exact M).
    rewrite BW, bytes_eqb_refl. exists (set_env (set_pos (set_lah x LNone (s_lahe x)) (s_lahe x)) e'). unfold field. cbn [s_env set_pos set_lah]. rewrite FI. split; [reflexivity|].
    split; [split; [apply ok_set_env, ok_set_pos; [apply ok_set_lah; [apply O|lia]|]|apply O]|].
    + cbn. rewrite (proj2 O). cbn. lia.
    + split; [cbn; exact LE|]. split; [reflexivity|]. unfold LahProofs4.pending. cbn. lia.
Qed.
Lemma variable_runs s n x e' r : state_ok x -> p_var P s (s_env x) (rest_at I None (s_pos x)) (ended_b I None) = VOk n ->
  p_field P s (firstn n (rest_at I None (s_pos x))) (s_env x) = Some e' -> pending (None :: r) x ->
  exists y, variable P I s x = Done y /\ state_ok y /\ s_pos y = s_pos x + n /\ s_env y = e' /\ pending r y.
Proof.
  intros O VR FI PE. unfold LahProofs4.pending in PE. destruct (s_lah x) as [| |t] eqn:LH; [|discriminate|destruct PE as (r' & w & Q & _); discriminate].
  unfold variable. pose proof (retry_spec I _ x (var_stable P LO s (s_env x)) (proj1 (proj1 O))) as RS. rewrite whole_none in RS by apply O. unfold fin in RS. rewrite (proj2 O), VR in RS.
  destruct RS as (z & RZ & V & S1 & FZ). rewrite RZ. assert (OZ : state_ok z).
  { split; [apply (ok_same I x); [apply O|exact V|apply same_keeps; exact S1]|]. destruct S1 as (_ & Q & _). rewrite <- Q. apply O. }
  assert (FZ' : p_var P s (s_env x) (avail I z) (view_complete z) = VOk n) by (destruct (p_var P s (s_env x) (avail I z) (view_complete z)); congruence).
  pose proof (lo_var_len _ LO _ _ _ _ _ FZ') as L1. pose proof (lo_var_len _ LO _ _ _ _ _ VR) as L2. pose proof S1 as (E1 & E2 & E3 & E4 & E5).
  rewrite avail_firstn by assumption. destruct (same_whole I x z S1) as (<- & _). rewrite whole_none by apply O. unfold field. cbn [s_env set_pos]. rewrite <- E5, FI.
  eexists. split; [reflexivity|]. split; [split; [apply ok_set_env, ok_set_pos; [apply OZ|]|apply OZ]|].
  - rewrite (proj2 OZ). cbn. rewrite <- E1. pose proof (iv_pos _ _ (proj1 (proj1 O))). unfold rest_at in L2. rewrite skipn_length in L2. lia.
  - split; [cbn; congruence|]. split; [reflexivity|]. unfold LahProofs4.pending. cbn [s_lah set_env set_pos s_lahe s_pos]. rewrite <- E3, LH, <- E4, <- E1. lia.
Qed.

Lemma good_look g s a b c e i e' j : all g -> own P g s -> find g s = Some (PLook a b) -> ~ list_look g s -> (c = a \/ c = b) ->
  good g [c] e i e' j (fun m m2 => parse P I m c) -> good g [s] e i e' j (fun m m2 => step P I m (parse P I m) s (PLook a b)).
Proof.
  intros AG OW F NLL CC (tr & D & FT & HE & R). assert (IN : In [c] (rhss_of g s)) by (unfold rhss_of; rewrite F; destruct CC as [-> | ->]; [left|right; left]; reflexivity).
  exists tr. split; [eapply derives_trans; [apply derives_one; exact IN|exact D]|]. split; [exact FT|]. split; [exact HE|].
  intros before after tr' out x D1 D2 F2 TL HR O X1 X2 PE. cbn [app] in D1.
  destruct (look_finds P I CL all main UN J EA g s a b c before after tr tr' out x) as (y & LK & OY & KY & PY & CH); try assumption.
  { apply Forall_app. auto. }
  { rewrite map_app, <- app_assoc, X1. apply HE. exact HR. }
  pose proof KY as (K1 & K2 & K3). destruct (R before after tr' out y) as (M & z & RZ & Z); try assumption; try congruence.
  { apply derives_expand with (s := s); assumption. }
  exists M, z. split; [|exact Z]. intros m m2 L L2. cbn [step]. rewrite LK. cbn [andthen].
  destruct CH as [(-> & Q) | [(-> & Q) | (_ & _ & Q)]]; [rewrite <- Q; apply (RZ m m2); lia|rewrite <- Q; apply (RZ m m2); lia|exfalso; exact (NLL Q)].
Qed.

(** Loops with look-ahead. *)
Section W.
Context (g : grammar) (AG : all g) (s l1 ep l2 b : sym) (OW : own P g l1).
Context (FL : find g l1 = Some (PLook ep l2)) (FE : find g ep = Some PEpsilon) (FB : find g l2 = Some (PSeq [b; l1])).
Local Notation whl := (fun m m2 => while P I m (parse P I m2 b) s l1 ep l2).
Lemma l1_empty : derives g [l1] [].
Proof.
  eapply derives_trans; [apply derives_one; unfold rhss_of; rewrite FL; left; reflexivity|]. apply one_step. apply (step_eps g [] ep [] FE).
Qed.
Lemma l1_l2 : In [l2] (rhss_of g l1). Proof. unfold rhss_of. rewrite FL. right. left. reflexivity. Qed.
Lemma l2_b : In [b; l1] (rhss_of g l2). Proof. unfold rhss_of. rewrite FB. left. reflexivity. Qed.
Lemma wait_ok r x : state_ok x -> pending r x -> exists c y, wait_or_eod I 1 x = Some (c, y) /\ state_ok y /\ keeps x y /\ pending r y.
Proof.
  intros O PE. destruct (wait_now I CL 1 x O) as (y & W & OY & S1). exists (Nat.leb 1 (length (whole I x))), y.
  split; [exact W|]. split; [exact OY|]. split; [apply same_keeps; exact S1|eapply pending_same; eassumption].
Qed.
Lemma while_end e i : good g [l1] e i e i whl.
Proof.
  exists []. split; [apply l1_empty|]. split; [constructor|]. split; [auto|]. intros before after tr' out x D1 D2 F2 TL HR O X1 X2 PE. cbn [app] in D1, PE.
  destruct (wait_ok _ x O PE) as (c & x1 & W & O1 & K1 & PE1). pose proof K1 as (Q1 & Q2 & Q3).
  destruct (look_finds P I CL all main UN J EA g l1 ep l2 ep before after [] tr' out x1) as (y & LK & OY & KY & PY & CH); try assumption.
  { left. reflexivity. }
  { apply one_step. apply (step_eps g [] ep [] FE). }
  { cbn [app]. rewrite <- Q1, X1. exact HR. }
  pose proof KY as (K2 & K3 & K4). exists 1, y. split; [|split; [exact OY|split; [congruence|split; [congruence|exact PY]]]].
  intros m m2 L L2. destruct m as [|m]; [lia|]. cbn [while]. rewrite W, LK. cbn [andthen]. destruct CH as [(-> & _) | [(_ & Q) | (-> & _)]]; [reflexivity| |reflexivity]. exfalso. rewrite Q in FE. congruence.
Qed.
Lemma while_go e i e1 j1 e2 e' j stop : good g [b] e i e1 j1 (fun m m2 => parse P I m b) -> p_item P s e1 = Some (e2, stop) ->
  (stop = true /\ e' = e2 /\ j = j1) \/ (stop = false /\ good g [l1] e2 j1 e' j whl /\ (i <> j1 \/ rest_at I None j1 = [])) -> good g [l1] e i e' j whl.
Proof.
  intros (tr & D & FT & HE & R) IT ALT.
  (* the rest of the loop *)
  assert (REST : exists tr2, derives g [l1] tr2 /\ Forall (token g) tr2 /\ (forall r, here r j -> here (toks tr2 ++ r) j1) /\
    forall before after tr' out y, derives g [g_root g] (before ++ l1 :: after) -> derives g after tr' -> Forall (token g) tr' -> tail g out -> here (toks tr' ++ out) j ->
      state_ok y -> s_pos y = j1 -> s_env y = e1 -> pending (toks (tr2 ++ tr') ++ out) y ->
      exists M z, (forall m m2, M <= m -> M <= m2 -> item P s y (fun stop y => if stop then Done y else progressed I i y (whl m m2)) = Done z) /\ state_ok z /\ s_pos z = j /\ s_env z = e' /\ pending (toks tr' ++ out) z).
  { destruct ALT as [(-> & -> & ->) | (-> & (tr2 & D2 & F2 & H2 & R2) & MV)].
    - exists []. split; [apply l1_empty|]. split; [constructor|]. split; [auto|]. intros before after tr' out y _ _ _ _ _ O Y1 Y2 PE. exists 0, (set_env y e2).
      split; [intros; unfold item; rewrite Y2, IT; reflexivity|]. split; [split; [apply ok_set_env; apply O|apply O]|]. split; [exact Y1|]. split; [reflexivity|exact PE].
    - exists tr2. split; [exact D2|]. split; [exact F2|]. split; [exact H2|]. intros before after tr' out y DR DA FA TL HR O Y1 Y2 PE.
      assert (O' : state_ok (set_env y e2)) by (split; [apply ok_set_env; apply O|apply O]).
      assert (PG : exists y', state_ok y' /\ same (set_env y e2) y' /\ forall k, progressed I i (set_env y e2) k = k y').
      { unfold progressed. destruct (Nat.eqb_spec (s_pos (set_env y e2)) i) as [Q | Q].
        - cbn in Q. destruct MV as [MV | MV]; [exfalso; congruence|]. destruct (at_eod_now I CL (set_env y e2) O') as (y' & A & OY & S1). cbn [s_pos set_env] in A. rewrite Y1, MV in A. exists y'.
          split; [exact OY|]. split; [exact S1|]. intros k. rewrite A. reflexivity.
        - exists (set_env y e2). split; [exact O'|]. split; [apply same_refl|]. reflexivity. }
      destruct PG as (y' & OY & S1 & PG). destruct (same_env_pos _ _ S1) as (Z1 & Z2).
      destruct (R2 before after tr' out y') as (M & z & RZ & Z); try assumption; try (cbn in Z1, Z2; congruence).
      { eapply pending_same; [exact S1|]. exact PE. }
      exists M, z. split; [|exact Z]. intros m m2 L L2. unfold item. rewrite Y2, IT. rewrite PG. apply RZ; assumption. }
  destruct REST as (tr2 & D2 & F2 & H2 & R2). assert (DBL : derives g [b; l1] (tr ++ tr2)).
  { change [b; l1] with ([b] ++ [l1]). eapply derives_trans; [apply (derives_ctx g [] [l1] _ _ D)|]. cbn [app]. pose proof (derives_ctx g tr [] _ _ D2) as Q. rewrite !app_nil_r in Q. exact Q. }
  assert (D2L : derives g [l2] (tr ++ tr2)) by (eapply derives_trans; [apply derives_one; apply l2_b|exact DBL]).
  exists (tr ++ tr2). split; [eapply derives_trans; [apply derives_one; apply l1_l2|exact D2L]|]. split; [apply Forall_app; auto|]. split; [intros r HR; rewrite map_app, <- app_assoc; apply HE; apply H2; exact HR|].
  intros before after tr' out x D1 DA FA TL HR O X1 X2 PE. cbn [app] in D1.
  destruct (wait_ok _ x O PE) as (c & x1 & W & O1 & K1 & PE1). pose proof K1 as (Q1 & Q2 & Q3).
  destruct (look_finds P I CL all main UN J EA g l1 ep l2 l2 before after (tr ++ tr2) tr' out x1) as (y & LK & OY & KY & PY & CH); try assumption.
  { right. reflexivity. }
  { apply Forall_app. split; [apply Forall_app; auto|assumption]. }
  { rewrite !map_app, <- !app_assoc, <- Q1, X1. apply HE. apply H2. exact HR. }
  pose proof KY as (K2 & K3 & K4). assert (DR2 : derives g [g_root g] (before ++ [b] ++ l1 :: after)).
  { apply derives_expand with (rhs := [l2]) in D1; [|apply l1_l2]. cbn [app] in D1. apply derives_expand with (rhs := [b; l1]) in D1; [|apply l2_b]. exact D1. }
  destruct (R before (l1 :: after) (tr2 ++ tr') out y) as (M1 & z1 & RZ1 & OZ1 & PZ1 & EZ1 & PEZ1); try assumption; try congruence.
  { change (l1 :: after) with ([l1] ++ after). eapply derives_trans; [apply (derives_ctx g [] after _ _ D2)|]. cbn [app]. pose proof (derives_ctx g tr2 [] _ _ DA) as Q. rewrite !app_nil_r in Q. exact Q. }
  { apply Forall_app. auto. }
  { rewrite map_app, <- app_assoc. apply H2. exact HR. }
  { rewrite app_assoc. exact PY. }
  destruct (R2 (before ++ [b]) after tr' out z1) as (M2 & z & RZ & Z); try assumption.
  { rewrite <- app_assoc. exact DR2. }
  exists (S (Nat.max M1 M2)), z. split; [|exact Z]. intros m m2 L L2. destruct m as [|m]; [lia|]. cbn [while]. rewrite W, LK. cbn [andthen].
  destruct CH as [(_ & Q) | [(-> & _) | (_ & Q & _)]]; [exfalso; rewrite Q in FB; congruence| |exfalso; rewrite Q in FB; congruence]. rewrite (RZ1 m2 m2) by lia. cbn [andthen]. replace (s_pos y) with i by congruence. apply RZ; lia.
Qed.
End W.

Lemma good_call g s r h e i e' j : all g -> all h -> g_root h = r -> find g s <> None -> p_call P s = Some r ->
  (forall tr, Forall (token h) tr -> derives h [r] tr -> exists tr', Forall (token g) tr' /\ derives g [s] tr' /\ map (tok_of g) tr' = map (tok_of h) tr) ->
  good h [r] e i e' j (fun m m2 => parse P I m r) -> good g [s] e i e' j (fun m m2 => parse P I m r).
Proof.
  intros AG AH RH FN CA TW (tr & D & FT & HE & R). destruct (TW tr FT D) as (tr2 & F2 & D2 & EQ).
  assert (TK : forall k l, all k -> Forall (token k) l -> toks l = map (tok_of k) l).
  { intros k l AK FL. apply map_ext_in. intros t IT. rewrite Forall_forall in FL. destruct (FL t IT) as (p & FP & _). unfold tok_of. rewrite FP. apply (lit_of_find P all main UN k t p AK FP). }
  assert (TE : toks tr2 = toks tr) by (rewrite (TK g tr2 AG F2), (TK h tr AH FT); exact EQ).
  exists tr2. split; [exact D2|]. split; [exact F2|]. split; [rewrite TE; exact HE|]. intros before after tr' out x D1 DA FA TL HR O X1 X2 PE.
  destruct (R [] [] [] (toks tr' ++ out) x) as (M & y & RY & Y); try assumption.
  - rewrite RH. constructor.
  - constructor.
  - constructor.
  - unfold LahProofs4.tail. rewrite <- RH in CA. cbn [app] in D1. destruct tr' as [|t tr']; cbn [map app hd_error].
    + exact (bh_last P all main g s h _ before after AG AH FN CA D1 DA TL).
    + assert (TT : token g t) by (inversion FA; assumption).
      replace (lit_of P t) with (tok_of g t); [|pose proof (TK g [t] AG (Forall_cons _ TT (Forall_nil _))) as Q; injection Q as Q; congruence]. eapply bh_next; [exact AG|exact AH|exact FN|exact CA|].
      split; [exact TT|]. exists before, tr'. eapply derives_trans; [exact D1|]. pose proof (derives_ctx g (before ++ [s]) [] _ _ DA) as Q. rewrite !app_nil_r, <- !app_assoc in Q. exact Q.
  - rewrite app_nil_r. rewrite map_app, TE, <- app_assoc in PE. exact PE.
  - exists M, y. split; [exact RY|exact Y].
Qed.

Lemma finds :
  (forall lim s e i e' j, parsed P I lim s e i e' j -> lim = None -> forall g, all g -> find g s <> None -> ~ inner g s -> own P g s -> good g [s] e i e' j (fun m m2 => parse P I m s)) /\
  (forall lim s p e i e' j, body P I lim s p e i e' j -> lim = None -> forall g, all g -> find g s = Some p -> ~ inner g s -> own P g s -> p_call P s = None -> good g [s] e i e' j (fun m m2 => step P I m (parse P I m) s p)) /\
  (forall lim l e i e' j, parsed_all P I lim l e i e' j -> lim = None -> forall g, all g -> (forall s, In s l -> find g s <> None /\ ~ inner g s /\ own P g s) -> good g l e i e' j (fun m m2 => seq (parse P I m) l)) /\
  (forall lim s b h e i e' j, items P I lim s b h e i e' j -> lim = None -> h = HWhile -> forall g l1 ep l2, all g ->
     find g l1 = Some (PLook ep l2) -> find g ep = Some PEpsilon -> find g l2 = Some (PSeq [b; l1]) -> ~ inner g b -> own P g l1 -> own P g b -> good g [l1] e i e' j (fun m m2 => while P I m (parse P I m2 b) s l1 ep l2)).
Proof.
  apply (parsed_all_ind E P I
    (fun lim s e i e' j => lim = None -> forall g, all g -> find g s <> None -> ~ inner g s -> own P g s -> good g [s] e i e' j (fun m m2 => parse P I m s))
    (fun lim s p e i e' j => lim = None -> forall g, all g -> find g s = Some p -> ~ inner g s -> own P g s -> p_call P s = None -> good g [s] e i e' j (fun m m2 => step P I m (parse P I m) s p))
    (fun lim l e i e' j => lim = None -> forall g, all g -> (forall s, In s l -> find g s <> None /\ ~ inner g s /\ own P g s) -> good g l e i e' j (fun m m2 => seq (parse P I m) l))
    (fun lim s b h e i e' j => lim = None -> h = HWhile -> forall g l1 ep l2, all g ->
      find g l1 = Some (PLook ep l2) -> find g ep = Some PEpsilon -> find g l2 = Some (PSeq [b; l1]) -> ~ inner g b -> own P g l1 -> own P g b -> good g [l1] e i e' j (fun m m2 => while P I m (parse P I m2 b) s l1 ep l2))).
  - (* pd_body *)
    intros lim s p e i e' j lim' PP CN CA BD _ IH -> g AG FN NI OW. destruct (find g s) as [p'|] eqn:FP; [|congruence]. pose proof (find_prod g s p' AG FP) as Q. rewrite PP in Q. injection Q as <-.
    pose proof (pl_size _ _ (un_plain _ _ _ UN g AG) s e) as SZ. rewrite FP in SZ. specialize (SZ ltac:(discriminate)). rewrite SZ in BD. cbn in BD. subst lim'.
    eapply good_later; [|apply (IH eq_refl g AG FP NI OW CA)]. intros m m2 x X. cbn [parse]. rewrite PP, X, CN, SZ, CA. reflexivity.
  - (* pd_unit *)
    intros lim s p e i e' j lim' r PP CN CA BD _ IH -> g AG FN NI OW. destruct (find g s) as [p'|] eqn:FP; [|congruence]. pose proof (find_prod g s p' AG FP) as Q. rewrite PP in Q. injection Q as <-.
    pose proof (pl_size _ _ (un_plain _ _ _ UN g AG) s e) as SZ. rewrite FP in SZ. specialize (SZ ltac:(discriminate)). rewrite SZ in BD. cbn in BD. subst lim'.
    destruct (un_call _ _ _ UN g s r AG) as (h & AH & RH & TW); [congruence|exact CA|].
    eapply good_later; [|apply (good_call g s r h e i e' j AG AH RH ltac:(congruence) CA TW); apply (IH eq_refl h AH)].
    + intros m m2 x X. cbn [parse]. rewrite PP, X, CN, SZ, CA. reflexivity.
    + destruct (un_compiled _ _ _ UN h AH) as (CC & _). rewrite <- RH. apply (cp_root _ CC).
    + rewrite <- RH. apply (pl_root _ _ (un_plain _ _ _ UN h AH)).
    + rewrite <- RH. apply own_root.
  - (* pd_else *)
    intros lim s ps es e i e' j lim' PP CN BD _ IH -> g AG FN NI OW. destruct (find g s) as [p'|] eqn:FP; [|congruence]. pose proof (find_prod g s p' AG FP) as Q. rewrite PP in Q. injection Q as <-.
    pose proof (pl_size _ _ (un_plain _ _ _ UN g AG) s e) as SZ. rewrite FP in SZ. specialize (SZ ltac:(discriminate)). rewrite SZ in BD. cbn in BD. subst lim'.
    destruct (pl_cond _ _ (un_plain _ _ _ UN g AG) s _ e FP) as [Q | (ps' & es' & Q & NE)]; [congruence|]. injection Q as <- <-.
    assert (IN : In es (rhss_of g s)) by (unfold rhss_of; rewrite FP; cbn; destruct es; [congruence|right; left; reflexivity]).
    pose proof (pl_call _ _ (un_plain _ _ _ UN g AG) s _ _ FP) as NC. eapply good_later; [|apply (good_expand g s es _ _ _ _ _ IN); apply (IH eq_refl g AG); intros t T; apply (child_found g s _ es t AG NI OW NC FP ltac:(discriminate) IN T)].
    intros m m2 x X. cbn [parse]. rewrite PP, X, CN, SZ. reflexivity.
  - (* pd_absent *)
    intros lim s p e i PP NB CN -> g AG FN NI OW. exfalso. destruct (find g s) as [p'|] eqn:FP; [|congruence]. pose proof (find_prod g s p' AG FP) as Q. rewrite PP in Q. injection Q as <-.
    destruct (pl_cond _ _ (un_plain _ _ _ UN g AG) s _ e FP) as [Q | (ps' & es' & -> & _)]; [congruence|]. exact (NB ps' es' eq_refl).
  - (* seq *)
    intros lim s ps e i e' j _ IH -> g AG FP NI OW NC. assert (IN : In ps (rhss_of g s)) by (unfold rhss_of; rewrite FP; left; reflexivity).
    apply (good_expand g s ps _ _ _ _ _ IN). apply (IH eq_refl g AG). intros t T. exact (child_found g s _ ps t AG NI OW NC FP ltac:(discriminate) IN T).
  - (* block *)
    intros lim s ps es e i e' j _ IH -> g AG FP NI OW NC. assert (IN : In ps (rhss_of g s)) by (unfold rhss_of; rewrite FP; left; reflexivity).
    apply (good_expand g s ps _ _ _ _ _ IN). apply (IH eq_refl g AG). intros t T. exact (child_found g s _ ps t AG NI OW NC FP ltac:(discriminate) IN T).
  - (* enclosure *)
    intros lim s c e i e' j _ IH -> g AG FP NI OW NC. assert (IN : In [c] (rhss_of g s)) by (unfold rhss_of; rewrite FP; left; reflexivity).
    apply (good_expand g s [c] _ _ _ _ _ IN). destruct (child_found g s _ [c] c AG NI OW NC FP ltac:(discriminate) IN (or_introl eq_refl)) as (Y1 & Y2 & Y3). apply (IH eq_refl g AG Y1 Y2 Y3).
  - (* epsilon *)
    intros lim s e i -> g AG FP NI OW NC. destruct (good_nil g e i (fun m m2 => step P I m (parse P I m) s PEpsilon)) as (tr & D & FT & HE & R); [reflexivity|]. exists tr.
    split; [eapply derives_trans; [apply one_step; apply (step_eps g [] s [] FP)|exact D]|]. split; [exact FT|]. split; [exact HE|]. intros before after tr' out x D1. apply (R before after).
    eapply der_step; [exact D1|]. apply (step_eps g before s after FP).
  - (* ctor *)
    intros lim s l w e i e' SP FI -> g AG FP NI OW NC. pose proof (lit_of_find P all main UN g s _ AG FP) as LT. cbn in LT. exists [s]. split; [constructor|].
    split; [constructor; [|constructor]; eexists; split; [exact FP|split; [reflexivity|discriminate]]|]. cbn [map app]. rewrite LT. split; [intros r _; exists w; exact SP|].
    intros before after tr' out x D1 DA FA TL HR O X1 X2 PE. rewrite <- X1 in SP. rewrite <- X2 in FI. destruct (literal_runs s l w x e' (toks tr' ++ out) O SP FI PE) as (y & RY & Y1 & Y2 & Y3 & Y4).
    exists 0, y. split; [intros; exact RY|]. rewrite <- X1. auto.
  - (* skip *)
    intros lim s c l w e i e' SP FI -> g AG FP NI OW NC. pose proof (lit_of_find P all main UN g s _ AG FP) as LT. cbn in LT. exists [s]. split; [constructor|].
    split; [constructor; [|constructor]; eexists; split; [exact FP|split; [reflexivity|discriminate]]|]. cbn [map app]. rewrite LT. split; [intros r _; exists w; exact SP|].
    intros before after tr' out x D1 DA FA TL HR O X1 X2 PE. rewrite <- X1 in SP. rewrite <- X2 in FI. destruct (literal_runs s l w x e' (toks tr' ++ out) O SP FI PE) as (y & RY & Y1 & Y2 & Y3 & Y4).
    exists 0, y. split; [intros; exact RY|]. rewrite <- X1. auto.
  - (* variable *)
    intros lim s ty n e i e' VR FI -> g AG FP NI OW NC. pose proof (lit_of_find P all main UN g s _ AG FP) as LT. cbn in LT. exists [s]. split; [constructor|].
    split; [constructor; [|constructor]; eexists; split; [exact FP|split; [reflexivity|discriminate]]|]. cbn [map app]. rewrite LT. split; [intros r _; exact Logic.I|].
    intros before after tr' out x D1 DA FA TL HR O X1 X2 PE. rewrite <- X1, <- X2 in VR. rewrite <- X1, <- X2 in FI. destruct (variable_runs s n x e' (toks tr' ++ out) O VR FI PE) as (y & RY & Y1 & Y2 & Y3 & Y4).
    exists 0, y. split; [intros; exact RY|]. rewrite <- X1. auto.
  - (* case *)
    intros lim s cs d k c e i e' j PC N _ IH -> g AG FP NI OW NC. assert (IN : In [c] (rhss_of g s)).
    { unfold rhss_of. rewrite FP. cbn. apply in_app_iff. left. apply in_map_iff. exists c. split; [reflexivity|eapply nth_error_In; exact N]. }
    apply (good_expand g s [c] _ _ _ _ _ IN). destruct (child_found g s _ [c] c AG NI OW NC FP ltac:(discriminate) IN (or_introl eq_refl)) as (Y1 & Y2 & Y3). eapply good_same; [|apply (IH eq_refl g AG Y1 Y2 Y3)].
    intros m m2 x X. cbn [step]. rewrite X, PC, N. reflexivity.
  - (* default *)
    intros lim s cs d e i e' j PC _ IH -> g AG FP NI OW NC. assert (IN : In [d] (rhss_of g s)).
    { unfold rhss_of. rewrite FP. cbn. apply in_app_iff. right. left. reflexivity. }
    apply (good_expand g s [d] _ _ _ _ _ IN). destruct (child_found g s _ [d] d AG NI OW NC FP ltac:(discriminate) IN (or_introl eq_refl)) as (Y1 & Y2 & Y3). eapply good_same; [|apply (IH eq_refl g AG Y1 Y2 Y3)].
    intros m m2 x X. cbn [step]. rewrite X, PC. reflexivity.
  - (* first *)
    intros lim s a b e i e' j _ IH -> g AG FP NI OW NC. assert (NLL : ~ list_look g s) by (intros LL; apply NI; exists s, a, b; auto). apply (good_look g s a b a); [exact AG|exact OW|exact FP|exact NLL|left; reflexivity|].
    destruct (child_found g s _ [a] a AG NI OW NC FP ltac:(discriminate)) as (Y1 & Y2 & Y3); [unfold rhss_of; rewrite FP; left; reflexivity|left; reflexivity|]. apply (IH eq_refl g AG Y1 Y2 Y3).
  - (* second *)
    intros lim s a b e i e' j _ IH -> g AG FP NI OW NC. assert (NLL : ~ list_look g s) by (intros LL; apply NI; exists s, a, b; auto). apply (good_look g s a b b); [exact AG|exact OW|exact FP|exact NLL|right; reflexivity|].
    destruct (child_found g s _ [b] b AG NI OW NC FP ltac:(discriminate)) as (Y1 & Y2 & Y3); [unfold rhss_of; rewrite FP; right; left; reflexivity|left; reflexivity|]. apply (IH eq_refl g AG Y1 Y2 Y3).
  - intros lim s b n e i e' j PL _ _ -> g AG FP NI OW NC. exfalso. exact (pl_loop _ _ (un_plain _ _ _ UN g AG) s b FP).
  - intros lim s b eo e i e' j PL _ _ -> g AG FP NI OW NC. exfalso. exact (pl_loop _ _ (un_plain _ _ _ UN g AG) s b FP).
  - (* while *)
    intros lim s l1 ep l2 b ps e i e' j P1 P2 _ IH -> g AG FP NI OW NC. destruct (pl_while _ _ (un_plain _ _ _ UN g AG) s l1 FP) as (ep' & l2' & b' & F1 & FE & F2 & NB & _ & C1 & C2).
    rewrite (find_prod g l1 _ AG F1) in P1. injection P1 as -> ->. rewrite (find_prod g l2 _ AG F2) in P2. injection P2 as <- <-.
    assert (IN : In [l1] (rhss_of g s)) by (unfold rhss_of; rewrite FP; left; reflexivity).
    apply (good_expand g s [l1] _ _ _ _ _ IN). assert (O1 : own P g l1) by (eapply own_child; [exact OW|exact NC|apply alternative_iff; exact IN|left; reflexivity]).
    assert (O2 : own P g l2) by (eapply own_child; [exact O1|exact C1|eapply alt_look2; exact F1|left; reflexivity]).
    assert (O3 : own P g b') by (eapply own_child; [exact O2|exact C2|apply alt_seq; exact F2|left; reflexivity]).
    specialize (IH eq_refl eq_refl g l1 ep l2 AG F1 FE F2 NB O1 O3).
    destruct IH as (tr & D & FT & HE & R). exists tr. split; [exact D|]. split; [exact FT|]. split; [exact HE|]. intros before after tr' out x D1 DA FA TL HR O X1 X2 PE.
    destruct (R before after tr' out x D1 DA FA TL HR O X1 X2 PE) as (M & y & RY & Y). exists M, y. split; [|exact Y]. intros m m2 L L2. cbn [step].
    rewrite (find_prod g l1 _ AG F1), (find_prod g l2 _ AG F2). apply (RY m m); assumption.
  - (* nil *)
    intros lim e i -> g AG _. apply good_nil. reflexivity.
  - (* cons *)
    intros lim s l e i e1 j1 e' j _ IH1 _ IH2 -> g AG FN. destruct (FN s (or_introl eq_refl)) as (Y1 & Y2 & Y3). apply (good_cons g s l e i e1 j1 e' j (fun m m2 => parse P I m)).
    + apply (IH1 eq_refl g AG Y1 Y2 Y3).
    + apply (IH2 eq_refl g AG). intros t T. apply FN. right. exact T.
  - (* end *)
    intros lim s b h e i ME -> -> g l1 ep l2 AG F1 FE F2 NB O1 O3. apply (while_end g AG s l1 ep l2 b O1 F1 FE F2).
  - (* stop *)
    intros lim s b h h' e i e1 j e' GO _ IH IT -> -> g l1 ep l2 AG F1 FE F2 NB O1 O3. eapply (while_go g AG s l1 ep l2 b O1 F1 FE F2); [refine (IH eq_refl g AG _ NB O3)|exact IT|left; auto].
    apply (child_found0 g l2 [b; l1] b AG); [unfold rhss_of; rewrite F2; left; reflexivity|left; reflexivity].
  - (* next *)
    intros lim s b h h' e i e1 j e2 e' k GO _ IH IT MV _ IH2 -> -> g l1 ep l2 AG F1 FE F2 NB O1 O3. cbn in GO. subst h'.
    eapply (while_go g AG s l1 ep l2 b O1 F1 FE F2); [refine (IH eq_refl g AG _ NB O3)|exact IT|right; split; [reflexivity|split]].
    + apply (child_found0 g l2 [b; l1] b AG); [unfold rhss_of; rewrite F2; left; reflexivity|left; reflexivity].
    + apply (IH2 eq_refl eq_refl g l1 ep l2 AG F1 FE F2 NB O1 O3).
    + cbn in MV. destruct MV as [MV | (MV & _)]; auto.
Qed.
End S.
