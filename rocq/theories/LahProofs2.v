(** Every function of the parser behaves the same however the input arrives, and on an extended input once it has decided. *)
From Verif Require Import Base GrammarModel LahModel LahSpec LahProofs.

Section S.
Context {E : Type} (P : prog E) (I I' : input) (EX : extends I I') (LO : leaf_ok P).
Local Notation sim := (@sim E I I').
Local Notation rel := (@rel E I I').

Lemma sim_step (x y x' y' : st E) : sim x y -> inv I x' -> inv I' y' -> same x x' -> same y y' -> sim x' y'.
Proof. intros (_ & _ & S0) A B S1 S2. split; [exact A|]. split; [exact B|]. eapply same_trans; [apply same_sym; exact S1|]. eapply same_trans; [exact S0|exact S2]. Qed.
Lemma avail_firstn J (x : st E) n : inv J x -> n <= length (avail J x) -> firstn n (avail J x) = firstn n (whole J x).
Proof. intros V L. destruct (avail_whole J x V) as (t & ->). rewrite firstn_app_prefix by exact L. reflexivity. Qed.
Lemma avail_len J (x : st E) : inv J x -> length (avail J x) <= length (whole J x).
Proof. intros V. destruct (avail_whole J x V) as (t & ->). rewrite app_length. lia. Qed.
Lemma whole_len J (x : st E) : s_pos x <= length (i_data J) -> s_pos x + length (whole J x) <= length (i_data J).
Proof. intros L. unfold whole, rest_at. rewrite skipn_length. destruct (s_lim x); [rewrite firstn_length|]; lia. Qed.
Lemma avail_pos J (x : st E) n : inv J x -> n <= length (avail J x) -> s_pos x + n <= length (i_data J).
Proof. intros V L. pose proof (avail_len J x V). pose proof (whole_len J x (iv_pos _ _ V)). lia. Qed.
Lemma sim_whole x y n : sim x y -> n <= length (whole I x) -> firstn n (whole I' y) = firstn n (whole I x).
Proof.
  intros (VX & VY & S0) L. destruct (same_whole I' x y S0) as (<- & _). unfold whole in *.
  destruct (rest_extends I I' (s_lim x) (s_pos x) EX (iv_pos _ _ VX)) as [(-> & _) | (_ & t & ->)]; [reflexivity|]. apply firstn_app_prefix. exact L.
Qed.
Lemma sim_avail x y n : sim x y -> n <= length (avail I x) -> n <= length (avail I' y) -> firstn n (avail I' y) = firstn n (avail I x).
Proof.
  intros SM L L'. pose proof SM as (VX & VY & _). rewrite !avail_firstn by assumption. apply sim_whole; [exact SM|]. pose proof (avail_len I x VX). lia.
Qed.
Lemma starts_with_long w av : length w <= length av -> starts_with w av = bytes_eqb w (firstn (length w) av).
Proof. intros L. unfold starts_with. apply Nat.leb_le in L. rewrite L. reflexivity. Qed.
Lemma sim_starts x y w : sim x y -> length w <= length (avail I x) -> length w <= length (avail I' y) -> starts_with w (avail I' y) = starts_with w (avail I x).
Proof. intros SM L L'. rewrite !starts_with_long by assumption. rewrite (sim_avail x y) by assumption. reflexivity. Qed.

(** Updates. *)
Lemma sim_set_lah x y l e : sim x y -> e <= length (i_data I) -> sim (set_lah x l e) (set_lah y l e).
Proof.
  intros (VX & VY & (A & B & C & D & F)) L. split; [destruct VX; split; assumption|]. split; [|repeat split; assumption].
  destruct VY; split; try assumption. cbn. destruct EX as [<- | (_ & m & ->)]; [exact L|]. rewrite app_length. lia.
Qed.
Lemma data_len : length (i_data I) <= length (i_data I').
Proof. destruct EX as [<- | (_ & m & ->)]; [lia|]. rewrite app_length. lia. Qed.
Lemma sim_set_pos x y n : sim x y -> n <= length (i_data I) -> sim (set_pos x n) (set_pos y n).
Proof. intros (VX & VY & (A & B & C & D & F)) L. pose proof data_len. split; [destruct VX; split; cbn; assumption|]. split; [destruct VY; split; cbn; try assumption; lia|repeat split; assumption]. Qed.
Lemma sim_set_lim x y l : sim x y -> sim (set_lim x l) (set_lim y l).
Proof. intros (VX & VY & (A & B & C & D & F)). split; [destruct VX; split; assumption|]. split; [destruct VY; split; assumption|repeat split; assumption]. Qed.
Lemma sim_set_env x y e : sim x y -> sim (set_env x e) (set_env y e).
Proof. intros (VX & VY & (A & B & C & D & F)). split; [destruct VX; split; assumption|]. split; [destruct VY; split; assumption|repeat split; assumption]. Qed.
Lemma rel_done x y : sim x y -> rel (Done x) (Done y). Proof. intros SM. exists y. auto. Qed.
Ltac eqs SM := let A := fresh "Epos" in let B := fresh "Elim" in let C := fresh "Elah" in let D := fresh "Elahe" in let F := fresh "Eenv" in
  pose proof (proj2 (proj2 SM)) as (A & B & C & D & F).

Lemma rel_wait n x y k k' : sim x y ->
  (forall b x' y', sim x' y' -> same x x' -> (b = true -> n <= length (avail I x') /\ n <= length (avail I' y')) -> rel (k b x') (k' b y')) ->
  rel (match wait_or_eod I n x with Some (b, x') => k b x' | None => Suspended end) (match wait_or_eod I' n y with Some (b, y') => k' b y' | None => Suspended end).
Proof.
  intros SM K. apply (rel_retry I I' (wait_f n)); [exact EX|apply wait_stable|exact SM| |auto].
  intros a x' y' S1 SA F1 F2 _. apply K; [exact S1|exact SA|]. intros ->. unfold wait_f in *.
  destruct (Nat.leb_spec n (length (avail I x'))); [|destruct (view_complete x'); discriminate].
  destruct (Nat.leb_spec n (length (avail I' y'))); [auto|destruct (view_complete y'); discriminate].
Qed.
Lemma rel_at_eod x y k k' : sim x y -> (forall b x' y', sim x' y' -> same x x' -> rel (k b x') (k' b y')) ->
  rel (match at_eod I x with Some (b, x') => k b x' | None => Suspended end) (match at_eod I' y with Some (b, y') => k' b y' | None => Suspended end).
Proof.
  intros SM K. unfold at_eod. pose proof (rel_wait 1 x y (fun b => k (negb b)) (fun b => k' (negb b)) SM) as H.
  destruct (wait_or_eod I 1 x) as [[b x']|]; destruct (wait_or_eod I' 1 y) as [[b' y']|]; apply H; intros; apply K; assumption.
Qed.
Lemma rel_try_literal w x y k k' : sim x y ->
  (forall n x' y', sim x' y' -> same x x' -> s_pos x' + n <= length (i_data I) -> rel (k n x') (k' n y')) ->
  rel (match try_literal I w x with Some (n, x') => k n x' | None => Suspended end) (match try_literal I' w y with Some (n, y') => k' n y' | None => Suspended end).
Proof.
  intros SM K. unfold try_literal.
  pose proof (rel_wait (length w) x y (fun ok x' => k (if ok && starts_with w (avail I x') then length w else 0) x')
    (fun ok y' => k' (if ok && starts_with w (avail I' y') then length w else 0) y') SM) as H.
  destruct (wait_or_eod I (length w) x) as [[b x']|]; destruct (wait_or_eod I' (length w) y) as [[b' y']|]; apply H;
    intros b0 x0 y0 S0 SA L; clear H; (replace (b0 && starts_with w (avail I' y0)) with (b0 && starts_with w (avail I x0));
      [apply K; [exact S0|exact SA|]; pose proof (iv_pos _ _ (proj1 S0)); destruct b0; cbn [andb]; [|lia]; destruct (starts_with w (avail I x0)); [|lia];
        apply (avail_pos I x0); [apply S0|apply L; reflexivity]
      |destruct b0; [|reflexivity]; cbn [andb]; destruct (L eq_refl); symmetry; apply sim_starts; assumption]).
Qed.

Lemma rx_stable ls : stable (fun av c => match p_rx P ls av c with RWait => if c then Some RWait else None | r => Some r end).
Proof.
  intros av a more c H. destruct (p_rx P ls av false) eqn:F; [discriminate| |]; rewrite (lo_rx _ LO ls av more c) by congruence; rewrite F; exact H.
Qed.
Lemma rel_look_regexps ls x y : sim x y -> rel (look_regexps P I ls x) (look_regexps P I' ls y).
Proof.
  intros SM. unfold look_regexps. apply (rel_retry I I' _ x y
    (fun r x => match r with RWait => Done (set_lah x LEod (s_pos x)) | RNone => Done (set_lah x LNone (s_pos x)) | RTok l n => Done (set_lah x (LTok l) (s_pos x + n)) end)
    (fun r x => match r with RWait => Done (set_lah x LEod (s_pos x)) | RNone => Done (set_lah x LNone (s_pos x)) | RTok l n => Done (set_lah x (LTok l) (s_pos x + n)) end)
    Suspended Suspended EX (rx_stable ls) SM) ; [|auto].
  intros a x' y' S1 SA F1 F2 _. eqs S1. pose proof (iv_pos _ _ (proj1 S1)). destruct a; rewrite <- Epos; apply rel_done; apply sim_set_lah; try assumption.
  apply (avail_pos I x'); [apply S1|]. destruct (p_rx P ls (avail I x') (view_complete x')) as [| |l0 n0] eqn:R; [destruct (view_complete x'); discriminate|discriminate|].
  injection F1 as <- <-. eapply (lo_rx_len _ LO). exact R.
Qed.
Lemma rel_look_others ls : forall first x y, sim x y -> rel (look_others P I first ls x) (look_others P I' first ls y).
Proof.
  induction ls as [|l ls IH]; intros first x y SM; cbn [look_others]; [apply rel_done; exact SM|].
  assert (K : forall w, rel
    match try_literal I w x with
    | Some (n, x0) =>
        if first then look_others P I false ls (if Nat.eqb n 0 then x0 else set_lah x0 (LTok l) (s_pos x0 + n))
        else if negb (Nat.eqb n 0) && Nat.leb (s_lahe x0) (s_pos x0 + n)
        then match s_lah x0 with
             | LNone => look_others P I false ls (set_lah x0 (LTok l) (s_pos x0 + n))
             | _ => if Nat.eqb (s_pos x0 + n) (s_lahe x0) then Fail else look_others P I false ls (set_lah x0 (LTok l) (s_pos x0 + n))
             end
        else look_others P I false ls x0
    | None => Suspended
    end
    match try_literal I' w y with
    | Some (n, x0) =>
        if first then look_others P I' false ls (if Nat.eqb n 0 then x0 else set_lah x0 (LTok l) (s_pos x0 + n))
        else if negb (Nat.eqb n 0) && Nat.leb (s_lahe x0) (s_pos x0 + n)
        then match s_lah x0 with
             | LNone => look_others P I' false ls (set_lah x0 (LTok l) (s_pos x0 + n))
             | _ => if Nat.eqb (s_pos x0 + n) (s_lahe x0) then Fail else look_others P I' false ls (set_lah x0 (LTok l) (s_pos x0 + n))
             end
        else look_others P I' false ls x0
    | None => Suspended
    end).
  { intros w. apply rel_try_literal; [exact SM|]. intros n x' y' S1 SA L. eqs S1. rewrite <- Epos, <- Elahe, <- Elah.
    assert (SL : sim (set_lah x' (LTok l) (s_pos x' + n)) (set_lah y' (LTok l) (s_pos x' + n))) by (apply sim_set_lah; assumption).
    destruct first; [apply IH; destruct (Nat.eqb n 0); assumption|].
    destruct (negb (Nat.eqb n 0) && Nat.leb (s_lahe x') (s_pos x' + n)); [|apply IH; exact S1].
    destruct (s_lah x'); [apply IH; exact SL| |]; destruct (Nat.eqb (s_pos x' + n) (s_lahe x')); try reflexivity; apply IH; exact SL. }
  destruct (p_kind P l) as [w|w|]; [apply K|apply K|apply IH; exact SM].
Qed.
Lemma rel_get_look_ahead ls x y : sim x y -> rel (get_look_ahead P I ls x) (get_look_ahead P I' ls y).
Proof.
  intros SM. unfold get_look_ahead. set (k := fun J (b : bool) (x : st E) => if b then Done (set_lah x LEod (s_lahe x)) else
    match filter (is_rx P) ls with [] => look_others P J true ls x | rs => andthen (look_regexps P J rs x) (look_others P J false ls) end).
  pose proof (rel_at_eod x y (k I) (k I') SM) as H. unfold k in H. destruct (at_eod I x) as [[b x']|]; destruct (at_eod I' y) as [[b' y']|];
    try destruct b; try destruct b'; apply H; intros b0 x0 y0 S0 SA; clear H; (destruct b0;
      [eqs S0; rewrite <- Elahe; apply rel_done; apply sim_set_lah; [exact S0|]; apply (iv_lahe _ _ (proj1 S0))
      |destruct (filter (is_rx P) ls); [apply rel_look_others; exact S0|]; apply rel_andthen; [apply rel_look_regexps; exact S0|intros; apply rel_look_others; assumption]]).
Qed.
Lemma rel_look s x y : sim x y -> rel (look P I s x) (look P I' s y).
Proof.
  intros SM. unfold look. eqs SM. rewrite <- Elah. destruct (s_lah x); [destruct (p_lahs P s); apply rel_get_look_ahead; exact SM|apply rel_done; exact SM|apply rel_done; exact SM].
Qed.

Lemma rel_field s w x y : sim x y -> rel (field P s w x) (field P s w y).
Proof. intros SM. unfold field. eqs SM. rewrite <- Eenv. destruct (p_field P s w (s_env x)); [apply rel_done, sim_set_env, SM|reflexivity]. Qed.
Lemma between_extends i j : j <= length (i_data I) -> between I' i j = between I i j.
Proof.
  intros L. unfold between. destruct EX as [<- | (_ & m & ->)]; [reflexivity|]. destruct (Nat.le_gt_cases i j) as [K | K].
  - rewrite skipn_app. replace (i - length (i_data I)) with 0 by lia. rewrite skipn_O. apply firstn_app_prefix. rewrite skipn_length. lia.
  - replace (j - i) with 0 by lia. reflexivity.
Qed.
Lemma rel_plain s w x y : sim x y ->
  rel (match wait_or_eod I (length w) x with None => Suspended | Some (ok, x) => if ok && starts_with w (avail I x) then field P s w (set_pos x (s_pos x + length w)) else Fail end)
      (match wait_or_eod I' (length w) y with None => Suspended | Some (ok, x) => if ok && starts_with w (avail I' x) then field P s w (set_pos x (s_pos x + length w)) else Fail end).
Proof.
  intros SM. apply (rel_wait (length w) x y (fun ok x => if ok && starts_with w (avail I x) then field P s w (set_pos x (s_pos x + length w)) else Fail)
    (fun ok x => if ok && starts_with w (avail I' x) then field P s w (set_pos x (s_pos x + length w)) else Fail) SM).
  intros b x' y' S1 SA L. destruct b; cbn [andb]; [|reflexivity]. destruct (L eq_refl) as (L1 & L2). rewrite (sim_starts x' y') by assumption.
  destruct (starts_with w (avail I x')); [|reflexivity]. eqs S1. rewrite <- Epos. apply rel_field, sim_set_pos; [exact S1|]. apply (avail_pos I x'); [apply S1|exact L1].
Qed.
Lemma rel_literal s l x y : sim x y -> rel (literal P I s l x) (literal P I' s l y).
Proof.
  intros SM. unfold literal. eqs SM. rewrite <- Elah, <- Elahe, <- Epos. pose proof (iv_lahe _ _ (proj1 SM)) as LE.
  assert (N : rel match p_kind P l with
      | KBytes w | KInt w =>
          match wait_or_eod I (length w) x with
          | None => Suspended
          | Some (ok, x) => if ok && starts_with w (avail I x) then field P s w (set_pos x (s_pos x + length w)) else Fail
          end
      | KRegexp =>
          match retry I (fun av fin => match p_rx P [l] av fin with RWait => if fin then Some RWait else None | r => Some r end) x with
          | None => Suspended
          | Some (RWait, x) => NoFuel
          | Some (RTok _ n, x) => field P s (firstn n (avail I x)) (set_pos x (s_pos x + n))
          | Some (_, x) => Fail
          end
      end
      match p_kind P l with
      | KBytes w | KInt w =>
          match wait_or_eod I' (length w) y with
          | None => Suspended
          | Some (ok, x) => if ok && starts_with w (avail I' x) then field P s w (set_pos x (s_pos x + length w)) else Fail
          end
      | KRegexp =>
          match retry I' (fun av fin => match p_rx P [l] av fin with RWait => if fin then Some RWait else None | r => Some r end) y with
          | None => Suspended
          | Some (RWait, x) => NoFuel
          | Some (RTok _ n, x) => field P s (firstn n (avail I' x)) (set_pos x (s_pos x + n))
          | Some (_, x) => Fail
          end
      end).
  { destruct (p_kind P l) as [w|w|]; [apply rel_plain; exact SM|apply rel_plain; exact SM|].
    apply (rel_retry I I' _ x y
      (fun r x => match r with RWait => NoFuel | RTok _ n => field P s (firstn n (avail I x)) (set_pos x (s_pos x + n)) | RNone => Fail end)
      (fun r x => match r with RWait => NoFuel | RTok _ n => field P s (firstn n (avail I' x)) (set_pos x (s_pos x + n)) | RNone => Fail end)
      Suspended Suspended EX (rx_stable [l]) SM); [|auto].
    intros a x' y' S1 SA F1 F2 _. destruct a as [| |t n]; [reflexivity|reflexivity|]. eqs S1. rewrite <- Epos0.
    assert (N1 : n <= length (avail I x')).
    { destruct (p_rx P [l] (avail I x') (view_complete x')) as [| |l0 n0] eqn:R; [destruct (view_complete x'); discriminate|discriminate|]. injection F1 as <- <-. eapply (lo_rx_len _ LO). exact R. }
    assert (N2 : n <= length (avail I' y')).
    { destruct (p_rx P [l] (avail I' y') (view_complete y')) as [| |l0 n0] eqn:R; [destruct (view_complete y'); discriminate|discriminate|]. injection F2 as <- <-. eapply (lo_rx_len _ LO). exact R. }
    rewrite (sim_avail x' y') by assumption. apply rel_field, sim_set_pos; [exact S1|]. apply (avail_pos I x'); [apply S1|exact N1]. }
  destruct (p_inuse P l); [|exact N]. destruct (s_lah x) as [| |t] eqn:LX; [exact N|reflexivity|].
  destruct (negb (Nat.eqb t l)); [reflexivity|]. rewrite between_extends by exact LE.
  assert (G : rel (field P s (between I (s_pos x) (s_lahe x)) (set_pos (set_lah x LNone (s_lahe x)) (s_lahe x)))
                  (field P s (between I (s_pos x) (s_lahe x)) (set_pos (set_lah y LNone (s_lahe x)) (s_lahe x)))).
  { apply rel_field, sim_set_pos; [|exact LE]. apply sim_set_lah; [exact SM|exact LE]. }
  destruct (p_kind P l) as [w|w|]; [destruct (bytes_eqb w (between I (s_pos x) (s_lahe x))); [exact G|reflexivity]|exact G|exact G].
Qed.
Lemma rel_variable s x y : sim x y -> rel (variable P I s x) (variable P I' s y).
Proof.
  intros SM. unfold variable. eqs SM. rewrite <- Eenv.
  assert (ST : stable (fun av c => match p_var P s (s_env x) av c with VWait => None | r => Some r end)).
  { intros av a more c H. destruct (p_var P s (s_env x) av false) eqn:F; [discriminate| |]; rewrite (lo_var _ LO s (s_env x) av more c) by congruence; rewrite F; exact H. }
  apply (rel_retry I I' _ x y
    (fun r x => match r with VOk n => field P s (firstn n (avail I x)) (set_pos x (s_pos x + n)) | _ => Fail end)
    (fun r x => match r with VOk n => field P s (firstn n (avail I' x)) (set_pos x (s_pos x + n)) | _ => Fail end)
    Suspended Suspended EX ST SM); [|auto].
  intros a x' y' S1 SA F1 F2 _. destruct a as [| |n]; [reflexivity|reflexivity|]. eqs S1. rewrite <- Epos0.
  assert (N1 : n <= length (avail I x')).
  { destruct (p_var P s (s_env x) (avail I x') (view_complete x')) as [| |n0] eqn:R; try discriminate. injection F1 as <-. eapply (lo_var_len _ LO). exact R. }
  assert (N2 : n <= length (avail I' y')).
  { destruct (p_var P s (s_env x) (avail I' y') (view_complete y')) as [| |n0] eqn:R; try discriminate. injection F2 as <-. eapply (lo_var_len _ LO). exact R. }
  rewrite (sim_avail x' y') by assumption. apply rel_field, sim_set_pos; [exact S1|]. apply (avail_pos I x'); [apply S1|exact N1].
Qed.

Lemma rel_sized n f f' x y : sim x y -> (forall x y, sim x y -> rel (f x) (f' y)) -> rel (sized n f x) (sized n f' y).
Proof.
  intros SM H. unfold sized. destruct n as [n|]; [|apply H; exact SM]. eqs SM. rewrite <- Elim, <- Epos. apply rel_andthen.
  - apply H, sim_set_lim, SM.
  - intros x1 y1 S1. eqs S1. rewrite <- Epos0. destruct (Nat.ltb_spec (s_pos x1) (s_pos x + n)) as [L | L]; [reflexivity|].
    apply rel_done, sim_set_lim, sim_set_pos; [exact S1|]. pose proof (iv_pos _ _ (proj1 S1)). lia.
Qed.
Lemma rel_seq f f' l : (forall s x y, sim x y -> rel (f s x) (f' s y)) -> forall x y, sim x y -> rel (seq f l x) (seq f' l y).
Proof.
  intros H. induction l as [|s l IH]; intros x y SM; cbn [seq]; [apply rel_done; exact SM|]. apply rel_andthen; [apply H; exact SM|exact IH].
Qed.
Lemma rel_item s x y k k' : sim x y -> (forall b x y, sim x y -> rel (k b x) (k' b y)) -> rel (item P s x k) (item P s y k').
Proof. intros SM H. unfold item. eqs SM. rewrite <- Eenv. destruct (p_item P s (s_env x)) as [[e b]|]; [apply H, sim_set_env, SM|reflexivity]. Qed.
Lemma rel_count f f' s n : (forall x y, sim x y -> rel (f x) (f' y)) -> forall x y, sim x y -> rel (count P f s n x) (count P f' s n y).
Proof.
  intros H. induction n as [|n IH]; intros x y SM; cbn [count]; [apply rel_done; exact SM|]. apply rel_andthen; [apply H; exact SM|].
  intros x1 y1 S1. apply rel_item; [exact S1|]. intros b x2 y2 S2. destruct b; [apply rel_done; exact S2|apply IH; exact S2].
Qed.
Lemma rel_progressed old x y k k' : sim x y -> (forall x y, sim x y -> rel (k x) (k' y)) -> rel (progressed I old x k) (progressed I' old y k').
Proof.
  intros SM H. unfold progressed. eqs SM. rewrite <- Epos. destruct (Nat.eqb (s_pos x) old); [|apply H; exact SM].
  pose proof (rel_at_eod x y (fun b x => if b then k x else Fail) (fun b x => if b then k' x else Fail) SM) as R.
  destruct (at_eod I x) as [[[|] x1]|]; destruct (at_eod I' y) as [[[|] y1]|]; apply R; intros b0 x0 y0 S0 _; (destruct b0; [apply H; exact S0|reflexivity]).
Qed.
Lemma rel_each m f f' s e : (forall x y, sim x y -> rel (f x) (f' y)) -> forall x y, sim x y -> rel (each P I m f s e x) (each P I' m f' s e y).
Proof.
  intros H. induction m as [|m IH]; intros x y SM; cbn [each]; [reflexivity|].
  assert (G : forall x y, sim x y ->
    rel (andthen (f x) (fun y0 => item P s y0 (fun stop y0 => if stop then Done y0 else progressed I (s_pos x) y0 (each P I m f s e))))
        (andthen (f' y) (fun y0 => item P s y0 (fun stop y0 => if stop then Done y0 else progressed I' (s_pos y) y0 (each P I' m f' s e))))).
  { intros x0 y0 S0. apply rel_andthen; [apply H; exact S0|]. intros x1 y1 S1. apply rel_item; [exact S1|]. intros b x2 y2 S2.
    destruct b; [apply rel_done; exact S2|]. eqs S0. rewrite <- Epos. apply rel_progressed; [exact S2|exact IH]. }
  destruct e; [|apply G; exact SM].
  set (k := fun J (g : st E -> result E) (b : bool) (x : st E) => if b then Done x else
     andthen (g x) (fun y0 => item P s y0 (fun stop y0 => if stop then Done y0 else progressed J (s_pos x) y0 (each P J m g s true)))).
  pose proof (rel_at_eod x y (k I f) (k I' f') SM) as R. unfold k in R.
  destruct (at_eod I x) as [[[|] x1]|]; destruct (at_eod I' y) as [[[|] y1]|]; apply R; intros b0 x0 y0 S0 _; (destruct b0; [apply rel_done; exact S0|apply G; exact S0]).
Qed.
Lemma rel_while m f f' s l1 a b : (forall x y, sim x y -> rel (f x) (f' y)) -> forall x y, sim x y -> rel (while P I m f s l1 a b x) (while P I' m f' s l1 a b y).
Proof.
  intros H. induction m as [|m IH]; intros x y SM; cbn [while]; [reflexivity|].
  set (k := fun J (g : st E -> result E) (_ : bool) (x : st E) => andthen (look P J l1 x) (fun x => match choose P l1 a b (s_lah x) with
     | First | Neither => Done x | EodError => Fail
     | Second => andthen (g x) (fun y => item P s y (fun stop y => if stop then Done y else progressed J (s_pos x) y (while P J m g s l1 a b))) end)).
  apply (rel_wait 1 x y (k I f) (k I' f') SM). intros c x0 y0 S0 _ _. unfold k. apply rel_andthen; [apply rel_look; exact S0|].
  intros x1 y1 S1. eqs S1. rewrite <- Elah, <- Epos. destruct (choose P l1 a b (s_lah x1)); [apply rel_done; exact S1| |apply rel_done; exact S1|reflexivity].
  apply rel_andthen; [apply H; exact S1|]. intros x2 y2 S2. apply rel_item; [exact S2|]. intros d x3 y3 S3. destruct d; [apply rel_done; exact S3|].
  apply rel_progressed; [exact S3|exact IH].
Qed.
Lemma rel_step m f f' s p x y : (forall s x y, sim x y -> rel (f s x) (f' s y)) -> sim x y -> rel (step P I m f s p x) (step P I' m f' s p y).
Proof.
  intros H SM. eqs SM. destruct p; cbn [step].
  - apply rel_seq; assumption.
  - apply rel_andthen; [apply rel_look; exact SM|]. intros x1 y1 S1. eqs S1. rewrite <- Elah0. destruct (choose P s a b (s_lah x1)); try reflexivity; apply H; exact S1.
  - rewrite <- Eenv. destruct (match p_case P s (s_env x) with Some i => nth_error cases i | None => default end); [apply H; exact SM|reflexivity].
  - apply rel_seq; assumption.
  - destruct (p_loop P s); [rewrite <- Eenv; apply rel_count; [intros; apply H; assumption|exact SM]|apply rel_each; [intros; apply H; assumption|exact SM]].
  - destruct (p_prod P body_for_grammar) as [[]|]; try reflexivity. destruct (p_prod P b) as [[[|c ps]| | | | | | | | | |]|]; try reflexivity.
    apply rel_while; [intros; apply H; assumption|exact SM].
  - apply H; exact SM.
  - apply rel_done; exact SM.
  - apply rel_literal; exact SM.
  - apply rel_literal; exact SM.
  - apply rel_variable; exact SM.
Qed.
Lemma rel_parse m : forall s x y, sim x y -> rel (parse P I m s x) (parse P I' m s y).
Proof.
  induction m as [|m IH]; intros s x y SM; cbn [parse]; [reflexivity|]. destruct (p_prod P s) as [p|]; [|reflexivity]. eqs SM. rewrite <- Eenv.
  destruct (p_cond P s (s_env x)).
  - apply rel_sized; [exact SM|]. intros x0 y0 S0. destruct (p_call P s) as [r|]; [apply IH; exact S0|]. apply rel_step; [exact IH|exact S0].
  - destruct p; try (apply rel_done; exact SM). apply rel_sized; [exact SM|]. intros x0 y0 S0. apply rel_seq; assumption.
Qed.
End S.
